(** * The hypotheses of C74 and C75 are met: transforms that satisfy the contract of C28, are linear and covariant under
    all rotations (and, for symmetric latitudes, reflection) exist at every resolution. *)
From Coq Require Import Reals Lra.
From Coquelicot Require Import Coquelicot.
From Verif Require Import Base BaseLemmas ForList Arith MFd MCheb MSphere MGrid MParams MField MEom PGrid PMake PSphere PSphere2 Spec SphereSpec SymSpec RotSpec PSum PFdR PSphereR
  PropFd2 PropSphere PropLadder LegSpec PLeg PSphereD PropSphereD PSphInst PSphInst2 PSphInst3 PropGridFilter PLinear GridSpec PTables PropTables PropGridOp PropRad PEom PEomOk PRk PropRk PropSphereInst PropSym PropSymInst PRot PropRot PropRot2 PRotInst.
Local Open Scope R_scope.

Lemma rot_good nlat nphi j : (0 < nphi)%nat ->
  let k := (nphi - j mod nphi)%nat in good nlat nphi (rotate nphi j) (rotate nphi k) /\ good nlat nphi (rotate nphi k) (rotate nphi j).
Proof.
  intros Hn k. assert (Hj : (j mod nphi < nphi)%nat) by (apply Nat.mod_upper_bound; lia).
  assert (E : forall ip, (ip < nphi)%nat -> (((ip + j) mod nphi + k) mod nphi = ip)%nat /\ (((ip + k) mod nphi + j) mod nphi = ip)%nat).
  { intros ip Hp. rewrite !Nat.add_mod_idemp_l by lia.
    pose proof (Nat.div_mod j nphi ltac:(lia)) as D.
    replace (ip + j + k)%nat with (ip + (j / nphi + 1) * nphi)%nat by (unfold k; nia).
    replace (ip + k + j)%nat with (ip + (j / nphi + 1) * nphi)%nat by (unfold k; nia).
    rewrite !Nat.mod_add, !Nat.mod_small by lia. auto. }
  split; intros it ip Ht Hp; cbn [rotate fst snd]; (split; [auto|]; split; [apply Nat.mod_upper_bound; lia|]); unfold rotate; f_equal; now apply E.
Qed.
Lemma mir_good nlat nphi : good nlat nphi (mirror nlat) (mirror nlat).
Proof. intros it ip Ht Hp. cbn [mirror fst snd]. split; [lia|]. split; [auto|]. unfold mirror. f_equal. lia. Qed.

Theorem C74_contract_satisfiable b L M nlat nphi ct :
  (M <= L)%nat -> (L < nlat)%nat -> (2 * L < nphi)%nat -> length ct = nlat ->
  (forall i j, (i < nlat)%nat -> (j < nlat)%nat -> nth i ct 0 = nth j ct 0 -> i = j) ->
  (forall i, (i < nlat)%nat -> -1 < nth i ct 0 < 1) ->
  exists h : sht R, s_lmax h = L /\ s_mmax h = M /\ s_nlat h = nlat /\ s_nphi h = nphi /\ s_ct h = ct /\
    lawful b h Ylm_profile /\ (M = L -> clawful b h Ylm_profile) /\ off_poles h /\ linear_sht h /\ anc_conjugate h /\
    (forall j, an_covariant b h (rotate nphi j) (rot_phase nphi j) /\ anc_covariant b h (rotate nphi j) (rot_phase nphi j)) /\
    (symmetric_nodes h -> an_covariant b h (mirror nlat) mir_phase /\ anc_covariant b h (mirror nlat) mir_phase).
Proof.
  intros HM HL Hphi Lct Hdist Hint.
  destruct (dual _ _ _ (T_indep b L M nlat nphi ct HM HL Hphi Lct Hdist Hint)) as (w & Hw & Hspan).
  destruct (finite_choice (0, 0)%nat (nlm_calc L M) (fun j p => (fst p <= L)%nat /\ (snd p <= fst p)%nat /\ (snd p <= M)%nat /\ LM L (fst p) (snd p) = j))
    as (lm & Llm & Hlm).
  { intros k Hk. destruct (LM_surj L M k HM Hk) as (l & m & ? & ? & ? & ?). exists (l, m). auto. }
  exists (hh b L M nlat nphi ct w lm). repeat (split; [reflexivity|]). split; [now apply h_lawful|]. split; [intros; now apply h_clawful|].
  split; [intros it Hit; now apply Hint|]. split; [now apply h_linear|].
  split; [now apply (h_conj b L M nlat nphi ct w lm)|]. split.
  - intros j. destruct (rot_good nlat nphi j ltac:(lia)) as [G G'].
    assert (F : forall j, moves_fields b L M nlat nphi ct w lm (rotate nphi j) (rot_phase nphi j)).
    { intros j' a a' Ha it ip Ht Hp. exact (rot_cfield (hh b L M nlat nphi ct w lm) Ylm_profile j' a a' Ha it ip Ht Hp). }
    split; [eapply h_an_cov|eapply h_anc_cov]; eauto.
  - intros Hsym. pose proof (mir_good nlat nphi) as G.
    assert (F : moves_fields b L M nlat nphi ct w lm (mirror nlat) mir_phase).
    { intros a a' Ha it ip Ht Hp. exact (mir_cfield (hh b L M nlat nphi ct w lm) a a' Hsym Ha it ip Ht Hp). }
    split; [eapply h_an_cov|eapply h_anc_cov]; eauto.
Qed.

(** latitudes symmetric about the equator *)
Definition sym_ct (n : nat) : list R := map (fun i => 2 * INR (S i) / INR (S n) - 1) (seq 0 n).
Lemma sym_ct_ok n : length (sym_ct n) = n /\
  (forall i j, (i < n)%nat -> (j < n)%nat -> nth i (sym_ct n) 0 = nth j (sym_ct n) 0 -> i = j) /\
  (forall i, (i < n)%nat -> -1 < nth i (sym_ct n) 0 < 1) /\
  (forall i, (i < n)%nat -> nth (n - 1 - i) (sym_ct n) 0 = - nth i (sym_ct n) 0).
Proof.
  assert (P : 0 < INR (S n)) by (apply lt_0_INR; lia).
  assert (E : forall i, (i < n)%nat -> nth i (sym_ct n) 0 = 2 * INR (S i) / INR (S n) - 1) by (intros i Hi; unfold sym_ct; now rewrite nth_mapseq).
  split; [unfold sym_ct; now rewrite map_length, seq_length|]. split; [|split].
  - intros i j Hi Hj. rewrite !E by auto. intros H. assert (H' : 2 * INR (S i) / INR (S n) = 2 * INR (S j) / INR (S n)) by lra.
    apply (f_equal (fun x => x * INR (S n) / 2)) in H'. replace (2 * INR (S i) / INR (S n) * INR (S n) / 2) with (INR (S i)) in H' by (field; lra).
    replace (2 * INR (S j) / INR (S n) * INR (S n) / 2) with (INR (S j)) in H' by (field; lra). apply INR_eq in H'. lia.
  - intros i Hi. rewrite E by auto. assert (A : 0 < INR (S i) < INR (S n)) by (split; [apply lt_0_INR; lia|apply lt_INR; lia]).
    assert (B : 0 < INR (S i) / INR (S n) < 1).
    { split; [apply Rdiv_lt_0_compat; lra|]. apply (Rmult_lt_reg_r (INR (S n))); [lra|]. unfold Rdiv. rewrite Rmult_assoc, Rinv_l by lra. lra. }
    unfold Rdiv in *. lra.
  - intros i Hi. rewrite !E by lia. replace (INR (S (n - 1 - i))) with (INR (S n) - INR (S i)).
    + field. lra.
    + rewrite <- minus_INR by lia. f_equal. lia.
Qed.

(** all hypotheses of C74 and C75 together, in both builds and layouts: nl = nm = 4 on 6 x 12 angles, 10 radial points, the
    non-constant k = 1 + psi^2/2 and V = psi^4-type potential; arbitrary non-symmetric data and their images, axisymmetric data,
    and data odd under reflection. *)
Example C74_C75_nonvacuous cheb lay : exists h g par e f p f' p' fa fo f'' p'', let b := Build cheb lay false in
  lawful b h Ylm_profile /\ clawful b h Ylm_profile /\ linear_sht h /\ symmetric_nodes h /\ (Z.of_nat (s_lmax h) < 2 ^ 31)%Z /\
  grid_of b h 50 2 50 10 g /\ g_n3 g = 720%nat /\ Eom_make g par = Ok e /\ e_k2 e = 1 /\ e_v4 e = 1 /\ ~ constant_k e /\ even_eqs e /\
  covariant b h (rotate (s_nphi h) 5) (rot_phase (s_nphi h) 5) e /\ covariant b h (rotate (s_nphi h) 1) (rot_phase (s_nphi h) 1) e /\
  covariant b h (mirror (s_nlat h)) mir_phase e /\
  (field_ok g f /\ field_ok g p /\ field_ok g f' /\ field_ok g p' /\ field_ok g fa /\ field_ok g fo /\ field_ok g f'' /\ field_ok g p'') /\
  gmoved g (rotate (s_nphi h) 5) (fl_n f) (fl_n f') /\ gmoved g (rotate (s_nphi h) 5) (fl_n p) (fl_n p') /\ fl_n f <> fl_n f' /\
  axisymmetric g (fl_n fa) /\ (exists i, nth i (fl_n fa) 0 <> 0) /\
  gmoved g (mirror (s_nlat h)) (fl_n f) (fl_n f'') /\ gmoved g (mirror (s_nlat h)) (fl_n p) (fl_n p'') /\ fl_n f <> fl_n f'' /\
  gmoved g (mirror (s_nlat h)) (fl_n fo) (negv (fl_n fo)) /\ (exists i, nth i (fl_n fo) 0 <> 0).
Proof.
  set (b := Build cheb lay false). destruct (sym_ct_ok 6) as (D1 & D2 & D3 & D4).
  destruct (C74_contract_satisfiable b 4 4 6 12 (sym_ct 6)) as (h & E1 & E2 & E3 & E4 & Ect & Hl & Hc & Hp & Hln & Hcj & Hrot & Hmir); auto; try lia.
  pose proof (lw_shapes b h _ Hl) as Hsh.
  assert (Hsym : symmetric_nodes h) by (unfold symmetric_nodes; rewrite E3, Ect; exact D4).
  assert (Hg : exists g, grid_of b h 50 2 50 10 g).
  { unfold grid_of. apply Grid_make_ok; [rewrite E3, Ect, D1; auto|]. intros _. left. lia. }
  destruct Hg as (g & Hg). set (par := Par 1 10 4 4 6 12 1 (1/10) 50 50 2 1 (7/10) 0 1 0 1 1 0 1 [] [] 0 0 0 0 0).
  destruct (Eom_make_total b h 50 2 50 10 g Hg par) as (e & He).
  pose proof (Eom_make_inv _ _ _ He) as I.
  destruct (gof_sizes b h 50 2 50 10 g Hg) as (_ & En & _ & El & Ep & _). rewrite E3 in El. rewrite E4 in Ep.
  assert (N3 : g_n3 g = 720%nat) by (unfold g_n3; rewrite En, El, Ep; reflexivity).
  assert (Hcov : forall s u, an_covariant b h s u -> anc_covariant b h s u -> covariant b h s u e).
  { intros s u A1 A2. split; [exact Hl|]. split; [exact A1|]. right. auto. }
  set (mkf := fun v : list R => Fld [] v v v v 720).
  assert (Of : forall v, length v = g_n3 g -> field_ok g (mkf v)) by (intros v Lv; unfold field_ok, mkf; cbn [fl_n fl_l fl_np1 fl_k fl_size]; rewrite Lv, N3; auto).
  set (F := fun it ip : nat => INR (12 * it + ip)).
  assert (Gm : forall s, (forall it ip, (it < 6)%nat -> (ip < 12)%nat -> (fst (s it ip) < 6)%nat /\ (snd (s it ip) < 12)%nat) ->
    forall v v', length v = g_n3 g -> length v' = g_n3 g ->
      (forall ix it ip, (ix < g_nx g)%nat -> (it < g_nlat g)%nat -> (ip < g_nphi g)%nat -> nth (indx_R_th_ph g ix it ip) v 0 = F it ip) ->
      (forall ix it ip, (ix < g_nx g)%nat -> (it < g_nlat g)%nat -> (ip < g_nphi g)%nat -> nth (indx_R_th_ph g ix it ip) v' 0 = F (fst (s it ip)) (snd (s it ip))) ->
      gmoved g s v v').
  { intros s Hs v v' Lv Lv' Hv Hv'. split; auto. split; auto. intros ix it ip Hx Ht Hpp. rewrite Hv' by auto. rewrite El in Ht. rewrite Ep in Hpp.
    destruct (Hs it ip Ht Hpp). rewrite Hv; auto; rewrite ?El, ?Ep; auto. }
  destruct (grid_values g (fun _ it ip => F it ip)) as (v & Lv & Hv).
  destruct (grid_values g (fun _ it ip => F (fst (rotate 12 5 it ip)) (snd (rotate 12 5 it ip)))) as (v1 & Lv1 & Hv1).
  destruct (grid_values g (fun _ it ip => F (fst (mirror 6 it ip)) (snd (mirror 6 it ip)))) as (v2 & Lv2 & Hv2).
  destruct (grid_values g (fun _ it ip => INR it + 1)) as (va & Lva & Hva).
  destruct (grid_values g (fun _ it ip => 2 * INR it - 5)) as (vo & Lvo & Hvo).
  exists h, g, par, e, (mkf v), (mkf v), (mkf v1), (mkf v1), (mkf va), (mkf vo), (mkf v2), (mkf v2).
  cbv zeta. fold b. rewrite E3, E4.
  split; [exact Hl|]. split; [now apply Hc|]. split; [exact Hln|]. split; [exact Hsym|]. split; [rewrite E1; reflexivity|].
  split; [exact Hg|]. split; [exact N3|]. split; [exact He|].
  assert (K2 : e_k2 e = 1 /\ e_v4 e = 1 /\ even_eqs e).
  { destruct I as (cs & _ & -> & _). unfold even_eqs. cbn [e_k0 e_km1 e_k1 e_k2 e_v2 e_v3 e_v4 pr_k0 pr_km1 pr_k1 pr_k2 pr_V2 pr_V3 pr_V4 par]. auto 8. }
  destruct K2 as (K2 & V4 & Ev). split; [exact K2|]. split; [exact V4|]. split; [intros (_ & _ & Z); rewrite K2 in Z; lra|]. split; [exact Ev|].
  split; [apply Hcov; apply Hrot|]. split; [apply Hcov; apply Hrot|]. split; [apply Hcov; now apply Hmir|].
  split; [repeat split; now apply Of|]. cbn [mkf fl_n].
  assert (Rr : forall it ip, (it < 6)%nat -> (ip < 12)%nat -> (fst (rotate 12 5 it ip) < 6)%nat /\ (snd (rotate 12 5 it ip) < 12)%nat)
    by (intros; cbn [rotate fst snd]; split; auto; apply Nat.mod_upper_bound; lia).
  assert (Rm : forall it ip, (it < 6)%nat -> (ip < 12)%nat -> (fst (mirror 6 it ip) < 6)%nat /\ (snd (mirror 6 it ip) < 12)%nat)
    by (intros; cbn [mirror fst snd]; split; auto; lia).
  assert (B : (0 < g_nx g)%nat /\ (0 < g_nlat g)%nat /\ (0 < g_nphi g)%nat) by (rewrite En, El, Ep; lia). destruct B as (B1 & B2 & B3).
  split; [now apply Gm|]. split; [now apply Gm|].
  split; [intros E; pose proof (Hv 0%nat 0%nat 0%nat B1 B2 B3) as X; rewrite E, Hv1 in X by auto; unfold F in X; cbn [rotate fst snd] in X; apply INR_eq in X; discriminate|].
  split; [split; [exact Lva|]; intros; now rewrite !Hva by auto|].
  split; [exists (indx_R_th_ph g 0 0 0); rewrite Hva by auto; cbn; lra|].
  split; [now apply Gm|]. split; [now apply Gm|].
  split; [intros E; pose proof (Hv 0%nat 0%nat 0%nat B1 B2 B3) as X; rewrite E, Hv2 in X by auto; unfold F in X; cbn [mirror fst snd] in X; apply INR_eq in X; discriminate|].
  split; [|exists (indx_R_th_ph g 0 0 0); rewrite Hvo by auto; cbn; lra].
  split; [exact Lvo|]. split; [unfold negv; now rewrite map_length|]. intros ix it ip Hx Ht Hpp. cbn [mirror fst snd].
  unfold negv. replace 0 with (- 0) at 1 by ring. rewrite map_nth. rewrite El in Ht. rewrite !Hvo by (rewrite ?El; auto; lia).
  rewrite !minus_INR by lia. cbn [INR]. ring.
Qed.
