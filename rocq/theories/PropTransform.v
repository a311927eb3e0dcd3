(** * Property C83: the four public transforms of Sphere (to_Ylm and to_Sph, real and complex). *)
From Coq Require Import Reals Lra.
From Verif Require Import Base BaseLemmas ForList Arith MSphere PGrid PMake PSphere PSphere2 Spec SphereSpec LegSpec TruncSpec PSum PFdR PSphereR PropSphere PropLadder PropSphereInst.
Local Open Scope nat_scope.

(** copying into a destination that is too short is undefined behaviour *)
Lemma copy_short {A} n : forall (src dst : list A), length dst < n -> n <= length src -> copy_out n src dst = UB.
Proof.
  intros src dst Hd Hs. unfold copy_out, for_. rewrite Nat.sub_0_r.
  assert (G : forall c i (d : list A), length d < i + c -> i <= length d -> i + c <= length src ->
    loop c i (fun i d => let! x := src.[i] in d.[i <- x]) d = UB).
  { induction c as [|c IH]; intros i d H1 H2 H3; [lia|]. cbn [loop].
    assert (E : exists x, src.[i] = Ok x).
    { unfold vget. destruct (nth_error src i) eqn:Q; [eauto|]. apply nth_error_None in Q. lia. }
    destruct E as (x & E). rewrite E. cbn [bind]. unfold vset. destruct (Nat.ltb_spec i (length d)) as [L|L]; [|reflexivity].
    cbn [bind]. apply IH; rewrite ?upd_length; lia. }
  apply G; lia.
Qed.
Lemma copy_in_short {A} (z : A) n src : length src < n -> copy_in z n src = UB.
Proof.
  intros Hs. unfold copy_in, for_. rewrite Nat.sub_0_r.
  assert (G : forall c i (d : list A), length src < i + c -> i <= length src -> length d = i + c ->
    loop c i (fun i d => let! x := src.[i] in d.[i <- x]) d = UB).
  { induction c as [|c IH]; intros i d H1 H2 H3; [lia|]. cbn [loop]. unfold vget. destruct (nth_error src i) eqn:Q; [|reflexivity].
    assert (i < length src) by (apply nth_error_Some; congruence). cbn [bind]. unfold vset.
    destruct (Nat.ltb_spec i (length d)) as [L|L]; [|reflexivity]. cbn [bind]. apply IH; rewrite ?upd_length; lia. }
  apply G; [lia|lia|apply vec_length].
Qed.

Section Any.
Context {F : Type} {AF : Arith F}.
Variables (b : build) (h : sht F) (s : sphere F).
Hypothesis Hsh : shapes h.
Hypothesis Hs : Sphr_of h s.
Local Notation N := (s_nlat h * s_nphi h).
Local Notation L := (s_lmax h).
Local Notation nlm := (nlm_calc (s_lmax h) (s_mmax h)).
Local Notation nc := ((L + 1) * (L + 1)).

Lemma sp_facts : sp_nSph s = N /\ sp_nYlm s = nlm /\ sp_shtns s = h /\ nYc s = nc.
Proof. unfold nYc. rewrite (s_eq h s Hsh Hs). cbn. auto. Qed.
Lemma to_Ylm_c_ok v y : length v = N -> length y = nc -> to_Ylm_c b s v y = Ok (s_anc h v).
Proof.
  intros Hv Hy. destruct sp_facts as (E1 & E2 & E3 & E4). unfold to_Ylm_c. rewrite E1, E3, E4.
  rewrite !assert_true by (apply Nat.eqb_eq; congruence). cbn [bind].
  rewrite copy_in_ok by auto. cbn [bind]. apply copy_out_ok; auto. apply (sh_anc h Hsh). now apply nspat_eq.
Qed.
Lemma to_Sph_c_ok y v : length v = N -> length y = nc -> to_Sph_c b s y v = Ok (s_syc h y).
Proof.
  intros Hv Hy. destruct sp_facts as (E1 & E2 & E3 & E4). unfold to_Sph_c. rewrite E1, E3, E4.
  rewrite !assert_true by (apply Nat.eqb_eq; congruence). cbn [bind].
  rewrite copy_in_ok by auto. cbn [bind]. apply copy_out_ok; auto.
  rewrite (sh_syc h Hsh) by auto. apply (sh_nspat h Hsh).
Qed.

(** with the right sizes every transform succeeds; the coefficient arrays have nlm and (lmax+1)^2 entries *)
Theorem C83_total v y vc yc : length v = N -> length y = nlm -> length vc = N -> length yc = nc ->
  (exists o, to_Ylm b s v y = Ok o /\ length o = nlm) /\ (exists o, to_Sph b s y v = Ok o /\ length o = N) /\
  (exists o, to_Ylm_c b s vc yc = Ok o /\ length o = nc) /\ (exists o, to_Sph_c b s yc vc = Ok o /\ length o = N).
Proof.
  intros Hv Hy Hvc Hyc.
  split; [exists (s_an h v); split; [now apply to_Ylm_ok|apply (sh_an h Hsh); now apply nspat_eq]|].
  split; [exists (s_sy h y); split; [now apply to_Sph_ok|rewrite (sh_sy h Hsh) by auto; apply (sh_nspat h Hsh)]|].
  split; [exists (s_anc h vc); split; [now apply to_Ylm_c_ok|apply (sh_anc h Hsh); now apply nspat_eq]|].
  exists (s_syc h yc). split; [now apply to_Sph_c_ok|rewrite (sh_syc h Hsh) by auto; apply (sh_nspat h Hsh)].
Qed.
(** with any other size an assertion fails in a build with assertions *)
Theorem C83_wrong_size_aborts v y vc yc : ndebug b = false ->
  (length v <> N \/ length y <> nlm -> to_Ylm b s v y = Abort /\ to_Sph b s y v = Abort) /\
  (length vc <> N \/ length yc <> nc -> to_Ylm_c b s vc yc = Abort /\ to_Sph_c b s yc vc = Abort).
Proof.
  intros D. destruct sp_facts as (E1 & E2 & E3 & E4).
  split; intros H; unfold to_Ylm, to_Sph, to_Ylm_c, to_Sph_c; rewrite E1, ?E2, ?E4; unfold assert_; rewrite D.
  - destruct (Nat.eqb_spec (length v) N), (Nat.eqb_spec (length y) nlm); cbn [bind]; try tauto.
  - destruct (Nat.eqb_spec (length vc) N), (Nat.eqb_spec (length yc) nc); cbn [bind]; try tauto.
Qed.
(** without assertions, a complex coefficient array of the size the object reports (nYlm) is overrun:
    nYlm is the size for the real transforms only *)
Theorem C83_nYlm_is_too_small_refuted v : ndebug b = true -> 1 <= L -> length v = N ->
  sp_nYlm s < nc /\ to_Ylm_c b s v (vec (sp_nYlm s) c0) = UB /\ to_Sph_c b s (vec (sp_nYlm s) c0) v = UB.
Proof.
  intros D HL Hv. destruct sp_facts as (E1 & E2 & E3 & E4). rewrite E2.
  assert (LT : nlm < nc).
  { pose proof (sh_mmax h Hsh) as HM. unfold nlm_calc.
    assert (s_mmax h * (s_mmax h + 1) / 2 * 2 <= s_mmax h * (s_mmax h + 1)) by (rewrite Nat.mul_comm; apply Nat.mul_div_le; lia).
    assert (s_mmax h * (s_mmax h + 1) <= s_mmax h * (s_mmax h + 1) / 2 * 2 + 1).
    { pose proof (Nat.div_mod (s_mmax h * (s_mmax h + 1)) 2 ltac:(lia)) as Q. pose proof (Nat.mod_upper_bound (s_mmax h * (s_mmax h + 1)) 2 ltac:(lia)). lia. }
    destruct (Nat.eq_dec (s_mmax h) 0) as [Z|Z]; [rewrite Z in *; cbn; nia|]. nia. }
  split; [exact LT|]. split.
  - unfold to_Ylm_c, assert_. rewrite D, E1, E3, E4. cbn [bind]. rewrite copy_in_ok by exact Hv. cbn [bind].
    apply copy_short; [rewrite vec_length; exact LT|]. rewrite (sh_anc h Hsh); [lia|]. now apply nspat_eq.
  - unfold to_Sph_c, assert_. rewrite D, E4. cbn [bind]. rewrite copy_in_short; [reflexivity|]. rewrite vec_length. exact LT.
Qed.
End Any.

Local Open Scope R_scope.
Section Lawful.
Variables (b : build) (h : sht R) (P : profiles) (s : sphere R).
Hypothesis Hlaw : lawful b h P.
Hypothesis Hs : Sphr_of h s.
Local Notation L := (s_lmax h).
Local Notation M := (s_mmax h).
Local Notation N := (s_nlat h * s_nphi h)%nat.
Local Notation nlm := (nlm_calc (s_lmax h) (s_mmax h)).
Local Notation nc := ((L + 1) * (L + 1))%nat.
Let Hsh : shapes h := lw_shapes b h P Hlaw.

(** synthesis returns the samples of the function whose coefficients it is given *)
Theorem C83_to_Sph y a d : stores h y a -> length d = N ->
  exists o, to_Sph b s y d = Ok o /\ sampled b h (real_field P L M a) o.
Proof.
  intros Hy Hd. exists (s_sy h y). split; [apply (to_Sph_ok b h s Hsh Hs); [exact Hd|apply Hy]|]. now apply (lw_syn b h P Hlaw).
Qed.
(** analysis returns the coefficients of the real band-limited function it is given samples of *)
Theorem C83_to_Ylm v a d : real_spectrum a -> sampled b h (real_field P L M a) v -> length d = nlm ->
  exists o, to_Ylm b s v d = Ok o /\ stores h o a.
Proof.
  intros Ha Hv Hd. exists (s_an h v). split; [apply (to_Ylm_ok b h s Hsh Hs); [apply Hv|exact Hd]|]. now apply (ana_of b h P Hlaw).
Qed.
(** there and back *)
Theorem C83_round_trip_coefficients y a d e : stores h y a -> real_spectrum a -> length d = N -> length e = nlm ->
  exists v, to_Sph b s y d = Ok v /\ to_Ylm b s v e = Ok y.
Proof.
  intros Hy Ha Hd He. exists (s_sy h y). split; [apply (to_Sph_ok b h s Hsh Hs); [exact Hd|apply Hy]|].
  rewrite (to_Ylm_ok b h s Hsh Hs); [|rewrite (sh_sy h Hsh) by apply Hy; apply (sh_nspat h Hsh)|exact He]. f_equal. now apply (lw_ana b h P Hlaw y a).
Qed.
Theorem C83_round_trip_samples v a d e : real_spectrum a -> sampled b h (real_field P L M a) v -> length d = nlm -> length e = N ->
  exists y, to_Ylm b s v d = Ok y /\ to_Sph b s y e = Ok v.
Proof.
  intros Ha Hv Hd He. destruct (C83_to_Ylm v a d Ha Hv Hd) as (y & E & Sy). exists y. split; [exact E|].
  destruct (C83_to_Sph y a e Sy He) as (o & E' & So). rewrite E'. f_equal. exact (sampled_unique b h _ _ _ So Hv).
Qed.
(** the round trip is not the identity on every coefficient array: imaginary parts of order 0 are dropped *)
Definition drop_imaginary (a : spectrum) : spectrum := fun l m => if Nat.eqb m 0 then (fst (a l m), 0) else a l m.
Theorem C83_order_0_imaginary_part_dropped y a d e : stores h y a -> length d = N -> length e = nlm ->
  exists v y', to_Sph b s y d = Ok v /\ to_Ylm b s v e = Ok y' /\ stores h y' (drop_imaginary a).
Proof.
  intros Hy Hd He. destruct (C83_to_Sph y a d Hy Hd) as (v & E & Sv).
  assert (Sv' : sampled b h (real_field P L M (drop_imaginary a)) v).
  { eapply sampled_ext; [|exact Sv]. intros th ph. unfold real_field. apply Rsum_ext. intros l _. apply Rsum_ext. intros m _.
    unfold mode, drop_imaginary. destruct (Nat.eqb_spec m 0) as [->|Nm]; reflexivity. }
  destruct (C83_to_Ylm v (drop_imaginary a) e) as (y' & E' & Sy'); [intro l; reflexivity|exact Sv'|exact He|].
  exists v, y'. auto.
Qed.
Section Complex.
Hypothesis Hcl : clawful b h P.
Theorem C83_to_Sph_complex y a d : cstores h y a -> length d = N ->
  exists o, to_Sph_c b s y d = Ok o /\ csampled b h (cre P L a) (cim P L a) o.
Proof.
  intros Hy Hd. exists (s_syc h y). split; [apply (to_Sph_c_ok b h s Hsh Hs); [exact Hd|apply Hy]|]. now apply (cl_syn b h P Hcl).
Qed.
Theorem C83_to_Ylm_complex v a d : csampled b h (cre P L a) (cim P L a) v -> length d = nc ->
  exists o, to_Ylm_c b s v d = Ok o /\ cstores h o a.
Proof.
  intros Hv Hd. exists (s_anc h v). split; [apply (to_Ylm_c_ok b h s Hsh Hs); [apply Hv|exact Hd]|].
  destruct (cpack h a) as (c & Hc). rewrite (csampled_unique b h _ _ _ _ Hv (cl_syn b h P Hcl c a Hc)). now rewrite (cl_ana b h P Hcl c a Hc).
Qed.
(** every coefficient array survives the round trip *)
Theorem C83_round_trip_complex y d e : length y = nc -> length d = N -> length e = nc ->
  exists v, to_Sph_c b s y d = Ok v /\ to_Ylm_c b s v e = Ok y.
Proof.
  intros Hy Hd He. exists (s_syc h y). split; [now apply (to_Sph_c_ok b h s Hsh Hs)|].
  rewrite (to_Ylm_c_ok b h s Hsh Hs); [|rewrite (sh_syc h Hsh) by exact Hy; apply (sh_nspat h Hsh)|exact He]. f_equal.
  apply (cl_ana b h P Hcl y (fun l m => nth (ci l m) y (0, 0))). split; [exact Hy|reflexivity].
Qed.
(** real data through the complex transform: the orders m >= 0 carry the coefficients of the real transform,
    the order -m carries (-1)^m times the conjugate *)
Theorem C83_real_data_through_complex v a dr dc : real_spectrum a -> sampled b h (real_field P L M a) v -> length dr = nlm -> length dc = nc ->
  exists yr yc, to_Ylm b s v dr = Ok yr /\ to_Ylm_c b s (map (fun x => (x, 0)) v) dc = Ok yc /\
    forall l m, (m <= l)%nat -> (l <= L)%nat ->
      nth (ci l (Z.of_nat m)) yc (0, 0) = nth (LM L l m) yr (0, 0) /\
      nth (ci l (- Z.of_nat m)) yc (0, 0) =
        ((if Nat.even m then 1 else -1) * fst (nth (LM L l m) yr (0, 0)), (if Nat.even m then -1 else 1) * snd (nth (LM L l m) yr (0, 0))).
Proof.
  intros Ha Hv Hr Hc. destruct (C83_to_Ylm v a dr Ha Hv Hr) as (yr & Er & Sr). assert (EM := cl_mmax b h P Hcl).
  assert (Hv' : sampled b h (real_field P L L a) v) by (rewrite <- EM at 2; exact Hv).
  exists yr, (s_anc h (embed v)). split; [exact Er|]. split.
  - apply (to_Ylm_c_ok b h s Hsh Hs); [etransitivity; [apply map_length|apply Hv]|exact Hc].
  - intros l m Hm Hl. destruct (anc_of b h P Hcl a v Ha Hv') as [_ SC]. destruct Sr as [_ SR].
    change (cplx R) with (R * R)%type in *. rewrite (SC l (Z.of_nat m)) by lia. rewrite (SC l (- Z.of_nat m)%Z) by lia. rewrite (SR l m) by lia.
    rewrite (both_neg a l (Z.of_nat m) Ha), (both_pos a l (Z.of_nat m)) by lia. rewrite Zabs2Nat.id. split; [reflexivity|].
    unfold sgm. assert (EV : Z.even (Z.of_nat m) = Nat.even m).
    { clear. induction m as [|m IH]; [reflexivity|]. rewrite Nat2Z.inj_succ, Z.even_succ, <- Z.negb_even, IH, Nat.even_succ, <- Nat.negb_even. reflexivity. }
    rewrite EV. destruct (Nat.even m); apply (f_equal2 (@pair R R)); ring.
Qed.
End Complex.
(** fewer orders than degrees (SHTns's layout, TruncSpec.v) *)
Section Truncated.
Hypothesis Ht : tlawful b h P.
Theorem C83_to_Sph_complex_truncated y a d : tstores h y a -> length d = N ->
  exists o, to_Sph_c b s y d = Ok o /\ csampled b h (tcre P L M a) (tcim P L M a) o.
Proof.
  intros Hy Hd. exists (s_syc h y). split; [apply (to_Sph_c_ok b h s Hsh Hs); [exact Hd|apply Hy]|]. now apply (tl_syn b h P Ht).
Qed.
Theorem C83_round_trip_complex_truncated y a d e : tstores h y a -> length d = N -> length e = nc ->
  exists v y', to_Sph_c b s y d = Ok v /\ to_Ylm_c b s v e = Ok y' /\ tstores h y' a.
Proof.
  intros Hy Hd He. exists (s_syc h y), (s_anc h (s_syc h y)). split; [apply (to_Sph_c_ok b h s Hsh Hs); [exact Hd|apply Hy]|].
  split; [|now apply (tl_ana b h P Ht)].
  apply (to_Ylm_c_ok b h s Hsh Hs); [rewrite (sh_syc h Hsh) by apply Hy; apply (sh_nspat h Hsh)|exact He].
Qed.
End Truncated.
End Lawful.

(** transforms meeting the contract exist (C28_contract_satisfiable), and data that are not zero *)
Example C83_nonvacuous b : exists h s a y, lawful b h Ylm_profile /\ clawful b h Ylm_profile /\ Sphr_of h s /\ (1 <= s_lmax h)%nat /\
  stores h y a /\ real_spectrum a /\ a 2%nat 1%nat = (1, 2).
Proof.
  destruct (C28_C36_nonvacuous b) as (h & s & _ & _ & Hl & Hc & _ & Hs & L8 & _).
  set (a := single 2 1 (1, 2)). destruct (pack h a (sh_mmax h (lw_shapes b h _ Hl))) as (y & Hy).
  exists h, s, a, y. split; [exact Hl|]. split; [exact Hc|]. split; [exact Hs|]. split; [lia|]. split; [exact Hy|]. split; [|reflexivity].
  apply single_real. discriminate.
Qed.
