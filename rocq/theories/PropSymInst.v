(** * The hypotheses of C72 and C73 are met: transforms that satisfy the contract of C28 and are linear exist at
    every resolution, and the equations of motion with vanishing couplings exist on every grid. *)
From Coq Require Import Reals Lra.
From Coquelicot Require Import Coquelicot.
From Verif Require Import Base BaseLemmas ForList Arith MFd MCheb MSphere MGrid MParams MField MEom PGrid PMake PSphere PSphere2 Spec SphereSpec SymSpec PSum PFdR PSphereR
  PropFd2 PropSphere PropLadder LegSpec PLeg PSphereD PropSphereD PSphInst PSphInst2 PSphInst3 PropGridFilter PLinear GridSpec PTables PropTables PropGridOp PropRad PEom PEomOk PRk PropRk PropSphereInst PropSym.
Local Open Scope R_scope.

Lemma nth_mapseq {A} (f : nat -> A) n i d : (i < n)%nat -> nth i (map f (seq 0 n)) d = f i.
Proof.
  intros Hi. rewrite (nth_indep _ d (f 0%nat)) by (now rewrite map_length, seq_length).
  now rewrite (map_nth f), seq_nth, Nat.add_0_l by auto.
Qed.
Lemma Rsum_lin n f f1 f2 a c : (forall i, (i < n)%nat -> f i = a * f1 i + c * f2 i) -> Rsum n f = a * Rsum n f1 + c * Rsum n f2.
Proof. intros E. induction n as [|n IH]; cbn [Rsum]; [ring|]. rewrite IH, E by auto. ring. Qed.

Section Lin.
Variables (L M nlat nphi : nat) (ct : list R) (w : nat -> nat -> R) (lm : list (nat * nat)).
Hypothesis HM : (M <= L)%nat.
Hypothesis Hlm : forall j, (j < nlm_calc L M)%nat -> let p := nth j lm (0, 0)%nat in
  (fst p <= L)%nat /\ (snd p <= fst p)%nat /\ (snd p <= M)%nat /\ LM L (fst p) (snd p) = j.
Variable b : build.
Local Notation h := (hh b L M nlat nphi ct w lm).
Local Notation N := (nlat * nphi)%nat.
Local Notation K := ((L + 1) * (L + 1))%nat.

Lemma cre_lin P a c (u v s : cspectrum) th ph :
  (forall l m, (l <= L)%nat -> (- Z.of_nat l <= m <= Z.of_nat l)%Z -> s l m = (a * fst (u l m) + c * fst (v l m), a * snd (u l m) + c * snd (v l m))) ->
  cre P L s th ph = a * cre P L u th ph + c * cre P L v th ph /\ cim P L s th ph = a * cim P L u th ph + c * cim P L v th ph.
Proof.
  intros E. split; unfold cre, cim; apply Rsum_lin; intros l Hl; unfold msum; apply Rsum_lin; intros k Hk; rewrite E by lia; cbn [fst snd]; ring.
Qed.
Lemma real_field_lin P a c (u v s : spectrum) th ph :
  (forall l m, (l <= L)%nat -> (m <= l)%nat -> (m <= M)%nat -> s l m = (a * fst (u l m) + c * fst (v l m), a * snd (u l m) + c * snd (v l m))) ->
  real_field P L M s th ph = a * real_field P L M u th ph + c * real_field P L M v th ph.
Proof.
  intros E. unfold real_field. apply Rsum_lin; intros l Hl. apply Rsum_lin; intros m Hm.
  rewrite E by lia. unfold mode. cbn [fst snd]. destruct (Nat.eqb m 0); ring.
Qed.
Lemma anc_lin a v c u : length v = N -> length u = N ->
  anc L nlat nphi w (clincomb a v c u) = clincomb a (anc L nlat nphi w v) c (anc L nlat nphi w u).
Proof.
  intros Lv Lu. pose proof (anc_length L nlat nphi w) as LA.
  apply (nth_ext _ _ (0, 0) (0, 0)); [now rewrite LA, (clincomb_length _ _ _ _ K)|].
  intros j Hj. rewrite LA in Hj. rewrite (nth_clincomb _ _ _ _ _ K) by auto.
  unfold anc at 1 2 3 4 5. rewrite !nth_mapseq by auto. cbn [fst snd].
  assert (E : forall q, dot (N + N) (w q) (fun i => if (i <? N)%nat then fst (nth i (clincomb a v c u) (0, 0)) else snd (nth (i - N) (clincomb a v c u) (0, 0))) =
    a * dot (N + N) (w q) (fun i => if (i <? N)%nat then fst (nth i v (0, 0)) else snd (nth (i - N) v (0, 0))) +
    c * dot (N + N) (w q) (fun i => if (i <? N)%nat then fst (nth i u (0, 0)) else snd (nth (i - N) u (0, 0)))).
  { intros q. unfold dot. apply Rsum_lin. intros i Hi. destruct (Nat.ltb_spec i N); rewrite (nth_clincomb _ _ _ _ _ N) by (auto; lia); cbn [fst snd]; ring. }
  now rewrite !E.
Qed.
Lemma ci_K l m : (l <= L)%nat -> (- Z.of_nat l <= m <= Z.of_nat l)%Z -> (ci l m < K)%nat.
Proof. intros. unfold ci. nia. Qed.
Lemma embl a v c u : length v = N -> length u = N ->
  map (fun x : R => (x, 0)) (lincomb a v c u) = clincomb a (map (fun x : R => (x, 0)) v) c (map (fun x : R => (x, 0)) u).
Proof.
  intros Lv Lu. apply (nth_ext _ _ (0, 0) (0, 0)); [rewrite map_length, (lincomb_length _ _ _ _ N), (clincomb_length _ _ _ _ N); rewrite ?map_length; auto|].
  intros i Hi. rewrite map_length, (lincomb_length _ _ _ _ N) in Hi by auto. rewrite (nth_clincomb _ _ _ _ _ N) by (rewrite ?map_length; auto).
  rewrite !(map_nth (fun x : R => (x, 0)) _ 0). rewrite (nth_lincomb _ _ _ _ _ N) by auto. cbn [fst snd]. f_equal; ring.
Qed.
Lemma h_linear : linear_sht h.
Proof.
  pose proof (anc_length L nlat nphi w) as LA.
  constructor; cbn [s_nspat s_lmax s_mmax s_an s_sy s_anc s_syc hh].
  - intros a v c u Lv Lu.
    assert (La : forall v, length (an L M nlat nphi w lm v) = nlm_calc L M) by (intros; unfold an; now rewrite map_length, seq_length).
    apply (nth_ext _ _ (0, 0) (0, 0)); [now rewrite La, (clincomb_length _ _ _ _ (nlm_calc L M))|].
    intros j Hj. rewrite La in Hj. rewrite (nth_clincomb _ _ _ _ _ (nlm_calc L M)) by auto.
    unfold an. rewrite !nth_mapseq by auto. rewrite embl, anc_lin by (rewrite ?map_length; auto).
    destruct (Hlm j Hj) as (A1 & A2 & A3 & _). rewrite (nth_clincomb _ _ _ _ _ K); auto. apply ci_K; lia.
  - intros a v c u Lv Lu.
    assert (Ls : forall v, length (sy b L M nlat nphi ct v) = N) by (intros; unfold sy; now rewrite map_length, seq_length).
    apply (nth_ext _ _ 0 0); [now rewrite Ls, (lincomb_length _ _ _ _ N)|].
    intros i Hi. rewrite Ls in Hi. rewrite (nth_lincomb _ _ _ _ _ N) by auto.
    unfold sy. rewrite !nth_mapseq by auto. apply real_field_lin. intros l m Hl Hm HM'. unfold dr.
    apply (nth_clincomb _ _ _ _ _ (nlm_calc L M)); auto. now apply LM_lt.
  - intros a v c u Lv Lu. now apply anc_lin.
  - intros a v c u Lv Lu.
    assert (Ls : forall v, length (syc b L nlat nphi ct v) = N) by (intros; unfold syc; now rewrite map_length, seq_length).
    apply (nth_ext _ _ (0, 0) (0, 0)); [now rewrite Ls, (clincomb_length _ _ _ _ N)|].
    intros i Hi. rewrite Ls in Hi. rewrite (nth_clincomb _ _ _ _ _ N) by auto.
    unfold syc. rewrite !nth_mapseq by auto. cbn [fst snd].
    destruct (cre_lin Ylm_profile a c (dc v) (dc u) (dc (clincomb a v c u)) (th_of b nlat nphi ct i) (ph_of b nlat nphi i)) as [E1 E2].
    { intros l m Hl Hm. unfold dc. apply (nth_clincomb _ _ _ _ _ K); auto. now apply ci_K. }
    now rewrite E1, E2.
Qed.
End Lin.

(** as C28_contract_satisfiable, and linear *)
Theorem C72_contract_satisfiable b L M nlat nphi ct :
  (M <= L)%nat -> (L < nlat)%nat -> (2 * L < nphi)%nat -> length ct = nlat ->
  (forall i j, (i < nlat)%nat -> (j < nlat)%nat -> nth i ct 0 = nth j ct 0 -> i = j) ->
  (forall i, (i < nlat)%nat -> -1 < nth i ct 0 < 1) ->
  exists h : sht R, s_lmax h = L /\ s_mmax h = M /\ s_nlat h = nlat /\ s_nphi h = nphi /\ s_ct h = ct /\
    lawful b h Ylm_profile /\ (M = L -> clawful b h Ylm_profile) /\ off_poles h /\ linear_sht h.
Proof.
  intros HM HL Hphi Lct Hdist Hint.
  destruct (dual _ _ _ (T_indep b L M nlat nphi ct HM HL Hphi Lct Hdist Hint)) as (w & Hw & _).
  destruct (finite_choice (0, 0)%nat (nlm_calc L M) (fun j p => (fst p <= L)%nat /\ (snd p <= fst p)%nat /\ (snd p <= M)%nat /\ LM L (fst p) (snd p) = j))
    as (lm & Llm & Hlm).
  { intros k Hk. destruct (LM_surj L M k HM Hk) as (l & m & ? & ? & ? & ?). exists (l, m). auto. }
  exists (hh b L M nlat nphi ct w lm). repeat (split; [reflexivity|]). split; [now apply h_lawful|]. split; [intros; now apply h_clawful|].
  split; [intros it Hit; now apply Hint|]. now apply h_linear.
Qed.

(** all hypotheses of C72 and C73 together, in both builds: nl = nm = 4 on 6 x 12 angles, 10 radial points; the equations have k = 1
    and a mass term V = psi^2/2; the combination 2 u + 3 w and the negative of two non-zero states. *)
Example C72_C73_nonvacuous cheb : exists h g e f1 p1 f2 p2 f3 p3 f4 p4, let b := Build cheb true false in
  lawful b h Ylm_profile /\ clawful b h Ylm_profile /\ linear_sht h /\ shapes h /\ (Z.of_nat (s_lmax h) < 2 ^ 31)%Z /\
  grid_of b h 50 2 50 10 g /\ g_n3 g = 720%nat /\ eom_ok g e /\ free_eqs e /\ even_eqs e /\ e_k0 e = 1 /\ e_v2 e = 1 /\
  field_ok g f1 /\ field_ok g p1 /\ field_ok g f2 /\ field_ok g p2 /\ field_ok g f3 /\ field_ok g p3 /\ field_ok g f4 /\ field_ok g p4 /\
  fl_n f3 = lincomb 2 (fl_n f1) 3 (fl_n f2) /\ fl_n p3 = lincomb 2 (fl_n p1) 3 (fl_n p2) /\
  fl_n f4 = negv (fl_n f1) /\ fl_n p4 = negv (fl_n p1) /\
  (forall i, (i < 720)%nat -> nth i (fl_n f1) 0 = INR i /\ nth i (fl_n f2) 0 = 1).
Proof.
  set (b := Build cheb true false). destruct (demo_ct_ok 6) as (D1 & D2 & D3).
  destruct (C72_contract_satisfiable b 4 4 6 12 (demo_ct 6)) as (h & E1 & E2 & E3 & E4 & Ect & Hl & Hc & Hp & Hln); auto; try lia.
  pose proof (lw_shapes b h _ Hl) as Hsh.
  assert (Hg : exists g, grid_of b h 50 2 50 10 g).
  { unfold grid_of. apply Grid_make_ok; [rewrite E3, Ect, D1; auto|]. intros _. left. lia. }
  destruct Hg as (g & Hg).
  destruct (Eom_make_total b h 50 2 50 10 g Hg (Par 1 10 4 4 6 12 1 (1/10) 50 50 2 1 (7/10) 0 1 0 0 1 0 0 [] [] 0 0 0 0 0)) as (e & He).
  pose proof (Eom_make_ok _ _ _ He) as Oe. pose proof (Eom_make_inv _ _ _ He) as I.
  destruct (gof_sizes b h 50 2 50 10 g Hg) as (_ & En & _ & El & Ep & _).
  assert (N3 : g_n3 g = 720%nat) by (unfold g_n3; rewrite En, El, Ep, E3, E4; reflexivity).
  set (mkf := fun v : list R => Fld [] v v v v 720).
  assert (Of : forall v, length v = 720%nat -> field_ok g (mkf v)) by (intros v Lv; unfold field_ok, mkf; cbn [fl_n fl_l fl_np1 fl_k fl_size]; rewrite Lv, N3; auto).
  set (u := map INR (seq 0 720)). set (w := repeat 1 720).
  assert (Lu : length u = 720%nat) by (unfold u; now rewrite map_length, seq_length).
  assert (Lw : length w = 720%nat) by (unfold w; apply repeat_length).
  exists h, g, e, (mkf u), (mkf w), (mkf w), (mkf u), (mkf (lincomb 2 u 3 w)), (mkf (lincomb 2 w 3 u)), (mkf (negv u)), (mkf (negv w)).
  cbv zeta. fold b. split; [exact Hl|]. split; [now apply Hc|]. split; [exact Hln|]. split; [exact Hsh|]. split; [rewrite E1; reflexivity|].
  split; [exact Hg|]. split; [exact N3|]. split; [exact Oe|].
  destruct I as (cs & _ & -> & _). unfold free_eqs, even_eqs. cbn [e_k0 e_km1 e_k1 e_k2 e_v2 e_v3 e_v4 pr_k0 pr_km1 pr_k1 pr_k2 pr_V2 pr_V3 pr_V4].
  split; [auto 8|]. split; [auto 8|]. split; [reflexivity|]. split; [reflexivity|].
  do 4 (split; [now apply Of|]).
  do 2 (split; [apply Of; now apply lincomb_length|]). do 2 (split; [apply Of; unfold negv; now rewrite map_length|]).
  do 4 (split; [reflexivity|]).
  intros i Hi. cbn [mkf fl_n]. split; [unfold u; now rewrite nth_mapseq|]. unfold w.
  clear -Hi. revert i Hi. generalize 720%nat. induction n as [|n IH]; intros i Hi; [lia|]. destruct i; cbn; auto. apply IH. lia.
Qed.
