(** Transforms that satisfy the contracts assumed by C74 and C75 exist at every resolution: the transforms of
    PSphInst3 with the weights of least norm (least-squares analysis) commute with every isometry of the samples that
    maps sampled functions to sampled functions. *)
From Coq Require Import Reals Lra Permutation.
From Coquelicot Require Import Coquelicot.
From Verif Require Import Base BaseLemmas ForList Arith MFd MCheb MSphere MGrid MParams MField MEom PGrid PMake PSphere PSphere2 Spec SphereSpec SymSpec RotSpec PSum PFdR PSphereR
  PropFd2 PropSphere PropLadder LegSpec PLeg PSphereD PropSphereD PSphInst PSphInst2 PSphInst3 PropGridFilter PLinear GridSpec PTables PropTables PropGridOp PropRad PEom PEomOk PRk PropRk PropSphereInst PropSym PropSymInst PRot PropRot.
Local Open Scope R_scope.

(** sums do not depend on the order *)
Definition lsum (l : list R) : R := fold_right Rplus 0 l.
Lemma lsum_perm l l' : Permutation l l' -> lsum l = lsum l'.
Proof. unfold lsum. induction 1; cbn [fold_right] in *; lra. Qed.
Lemma lsum_app l l' : lsum (l ++ l') = lsum l + lsum l'.
Proof. unfold lsum. induction l as [|x l IH]; cbn in *; [|rewrite IH]; lra. Qed.
Lemma Rsum_lsum n f : Rsum n f = lsum (map f (seq 0 n)).
Proof. induction n as [|n IH]; [reflexivity|]. rewrite seq_S, map_app, lsum_app. cbn [Rsum map lsum fold_right Nat.add]. rewrite IH. unfold lsum. ring. Qed.
Lemma Rsum_perm n (p : nat -> nat) f : (forall i, (i < n)%nat -> (p i < n)%nat) -> (forall i j, (i < n)%nat -> (j < n)%nat -> p i = p j -> i = j) ->
  Rsum n (fun i => f (p i)) = Rsum n f.
Proof.
  intros Hr Hi. rewrite !Rsum_lsum. rewrite <- (map_map p f). apply lsum_perm. apply Permutation_map.
  apply NoDup_Permutation_bis.
  - assert (G : forall l, NoDup l -> (forall i, In i l -> (i < n)%nat) -> NoDup (map p l)).
    { induction l as [|x l IH]; intros Hn Hl; cbn; constructor.
      - intros Hx. apply in_map_iff in Hx. destruct Hx as (y & Ey & Hy). inversion Hn; subst. apply H1.
        rewrite (Hi x y); auto; apply Hl; cbn; auto.
      - inversion Hn; subst. apply IH; auto. intros; apply Hl; cbn; auto. }
    apply G; [apply seq_NoDup|]. intros i Hin. apply in_seq in Hin. lia.
  - rewrite map_length. lia.
  - intros x Hx. apply in_map_iff in Hx. destruct Hx as (y & <- & Hy). apply in_seq in Hy. apply in_seq. specialize (Hr y). lia.
Qed.

Section Iso.
Variables (b : build) (L M nlat nphi : nat) (ct : list R) (w : nat -> nat -> R) (lm : list (nat * nat)).
Hypothesis HM : (M <= L)%nat.
Hypothesis HL : (L < nlat)%nat.
Hypothesis Hphi : (2 * L < nphi)%nat.
Hypothesis Lct : length ct = nlat.
Hypothesis Llm : length lm = nlm_calc L M.
Local Notation P := Ylm_profile.
Local Notation N := (nlat * nphi)%nat.
Local Notation K := ((L + 1) * (L + 1))%nat.
Local Notation T := (T b L nlat nphi ct).
Local Notation syc := (syc b L nlat nphi ct).
Local Notation anc := (anc L nlat nphi w).
Hypothesis Hw : forall j k, (j < K + K)%nat -> (k < K + K)%nat -> dot (N + N) (w j) (T k) = if Nat.eqb j k then 1 else 0.
Hypothesis Hspan : forall j, (j < K + K)%nat -> exists c, forall i, w j i = Rsum (K + K) (fun k => c k * T k i).

(** real and imaginary parts one after the other *)
Definition fl (v : list (R * R)) (i : nat) : R := if Nat.ltb i N then fst (nth i v (0, 0)) else snd (nth (i - N) v (0, 0)).
Definition ip (v v' : list (R * R)) : R := dot (N + N) (fl v) (fl v').
Lemma ip_sum v v' : ip v v' = Rsum N (fun i => fst (nth i v (0, 0)) * fst (nth i v' (0, 0)) + snd (nth i v (0, 0)) * snd (nth i v' (0, 0))).
Proof.
  unfold ip, dot. rewrite Rsum_split, <- Rsum_add. apply Rsum_ext. intros i Hi. unfold fl.
  destruct (Nat.ltb_spec i N); [|lia]. destruct (Nat.ltb_spec (N + i) N); [lia|]. replace (N + i - N)%nat with i by lia. reflexivity.
Qed.
Lemma nth_anc v j : (j < K)%nat -> nth j (anc v) (0, 0) = (dot (N + N) (w j) (fl v), dot (N + N) (w (K + j)%nat) (fl v)).
Proof. intros Hj. unfold PSphInst3.anc. now rewrite nth_mapseq. Qed.
Lemma len_anc v : length (anc v) = K.
Proof. unfold PSphInst3.anc. now rewrite map_length, seq_length. Qed.
Lemma len_syc c : length (syc c) = N.
Proof. unfold PSphInst3.syc. now rewrite map_length, seq_length. Qed.
Lemma nth_syc c i : (i < N)%nat -> nth i (syc c) (0, 0) = (cre P L (dc c) (th_of b nlat nphi ct i) (ph_of b nlat nphi i), cim P L (dc c) (th_of b nlat nphi ct i) (ph_of b nlat nphi i)).
Proof. intros Hi. unfold PSphInst3.syc. now rewrite nth_mapseq. Qed.
(** the span of the rows of T consists of the synthesised arrays *)
Lemma fl_syc c i : length c = K -> (i < N + N)%nat ->
  fl (syc c) i = Rsum (K + K) (fun k => (if Nat.ltb k K then fst (nth k c (0, 0)) else snd (nth (k - K) c (0, 0))) * T k i).
Proof.
  intros Lc Hi. set (X := fun j => if Nat.ltb j K then fst (dc c (dl j) (dm j)) else snd (dc c (dl (j - K)) (dm (j - K)))).
  transitivity (Rsum (K + K) (fun k => X k * T k i)).
  - unfold fl. destruct (Nat.ltb_spec i N).
    + rewrite nth_syc by auto. cbn [fst]. symmetry. apply (T_field b L M nlat nphi ct HM HL Hphi Lct (dc c) i); auto.
    + rewrite nth_syc by lia. cbn [snd]. destruct (T_field b L M nlat nphi ct HM HL Hphi Lct (dc c) (i - N) ltac:(lia)) as [_ E]. rewrite <- E.
      replace (N + (i - N))%nat with i by lia. reflexivity.
  - apply Rsum_ext. intros k Hk. f_equal. unfold X, dc. destruct (Nat.ltb_spec k K) as [H|H].
    + destruct (ci_decode k (L + 1) H) as (-> & _). reflexivity.
    + destruct (ci_decode (k - K) (L + 1) ltac:(lia)) as (-> & _). reflexivity.
Qed.
Lemma span_syc (x : nat -> R) : exists c, length c = K /\ forall i, (i < N + N)%nat -> Rsum (K + K) (fun k => x k * T k i) = fl (syc c) i.
Proof.
  exists (map (fun j => (x j, x (K + j)%nat)) (seq 0 K)). split; [now rewrite map_length, seq_length|]. intros i Hi.
  rewrite fl_syc by (auto; now rewrite map_length, seq_length). apply Rsum_ext. intros k Hk. f_equal.
  destruct (Nat.ltb_spec k K); rewrite nth_mapseq by lia; cbn [fst snd]; auto. f_equal. lia.
Qed.
Definition perp (r : list (R * R)) : Prop := forall c, length c = K -> ip (syc c) r = 0.
Lemma perp_anc r : perp r -> forall j, nth j (anc r) (0, 0) = (0, 0).
Proof.
  intros Hr j. destruct (lt_dec j K) as [Hj|Hj]; [|apply nth_overflow; rewrite len_anc; lia].
  rewrite nth_anc by auto.
  assert (E : forall q, (q < K + K)%nat -> dot (N + N) (w q) (fl r) = 0).
  { intros q Hq. destruct (Hspan q Hq) as (x & Hx). destruct (span_syc x) as (c & Lc & Hc).
    rewrite <- (Hr c Lc). unfold ip. apply dot_ext; auto. intros i Hi. rewrite Hx. now apply Hc. }
  rewrite !E by lia. reflexivity.
Qed.
(** the rows of T in terms of the dual vectors *)
Lemma T_dual k i : (k < K + K)%nat -> (i < N + N)%nat -> T k i = Rsum (K + K) (fun q => dot (N + N) (T k) (T q) * w q i).
Proof.
  intros Hk Hi. set (u := fun i => T k i - Rsum (K + K) (fun q => dot (N + N) (T k) (T q) * w q i)).
  assert (Hu : forall p, (p < K + K)%nat -> dot (N + N) u (T p) = 0).
  { intros p Hp. unfold u.
    rewrite (dot_ext (N + N) (fun i => T k i - Rsum (K + K) (fun q => dot (N + N) (T k) (T q) * w q i))
       (fun i => 1 * T k i + (-1) * Rsum (K + K) (fun q => dot (N + N) (T k) (T q) * w q i)) (T p) (T p)) by (intros; ring).
    rewrite (dot_lin (N + N) 1 (T k) (-1) (fun i => Rsum (K + K) (fun q => dot (N + N) (T k) (T q) * w q i)) (T p)).
    rewrite (dot_sum (N + N) (K + K) (fun q => dot (N + N) (T k) (T q)) w (T p)), (Rsum_single _ _ p); auto.
    - rewrite Hw, Nat.eqb_refl by auto. ring.
    - intros q Hq Hne. rewrite Hw by auto. destruct (Nat.eqb_spec q p); [congruence|ring]. }
  assert (Hs : exists x, forall i, u i = Rsum (K + K) (fun q => x q * T q i)).
  { assert (G : forall n, (n <= K + K)%nat -> exists x, forall i, Rsum n (fun q => dot (N + N) (T k) (T q) * w q i) = Rsum (K + K) (fun q => x q * T q i)).
    { induction n as [|n IH]; intros Hn.
      - exists (fun _ => 0). intros i'. cbn [Rsum]. symmetry. apply Rsum_zero. intros; ring.
      - destruct IH as (x & Hx); [lia|]. destruct (Hspan n ltac:(lia)) as (y & Hy).
        exists (fun q => x q + dot (N + N) (T k) (T n) * y q). intros i'. cbn [Rsum]. rewrite Hx, Hy, <- Rsum_scal, <- Rsum_add. apply Rsum_ext. intros; ring. }
    destruct (G (K + K)%nat (le_n _)) as (x & Hx). exists (fun q => (if Nat.eqb q k then 1 else 0) - x q). intros i'. unfold u. rewrite Hx.
    rewrite (Rsum_ext _ (fun q => ((if Nat.eqb q k then 1 else 0) - x q) * T q i') (fun q => (if Nat.eqb q k then 1 else 0) * T q i' - x q * T q i')) by (intros; ring).
    rewrite Rsum_sub. f_equal. rewrite (Rsum_single _ _ k); auto.
    - rewrite Nat.eqb_refl. ring.
    - intros q Hq Hne. destruct (Nat.eqb_spec q k); [congruence|ring]. }
  destruct Hs as (x & Hx).
  assert (Z : dot (N + N) u u = 0).
  { rewrite (dot_ext (N + N) u (fun i => Rsum (K + K) (fun q => x q * T q i)) u u) by auto. rewrite dot_sum. apply Rsum_zero. intros q Hq. rewrite dot_sym, Hu by auto. ring. }
  pose proof (dot_zero _ u Z i Hi) as E. unfold u in E. lra.
Qed.
Lemma fl_lin a v c u i : length v = N -> length u = N -> (i < N + N)%nat -> fl (clincomb a v c u) i = a * fl v i + c * fl u i.
Proof. intros Lv Lu Hi. unfold fl. destruct (Nat.ltb_spec i N); rewrite (nth_clincomb _ _ _ _ _ N) by (auto; lia); reflexivity. Qed.
Lemma rest_perp v : length v = N -> perp (clincomb 1 v (-1) (syc (anc v))).
Proof.
  intros Lv c Lc. set (r := clincomb 1 v (-1) (syc (anc v))).
  assert (Z : forall q, (q < K + K)%nat -> dot (N + N) (w q) (fl r) = 0).
  { intros q Hq.
    assert (E : anc r = clincomb 1 (anc v) (-1) (anc v)).
    { unfold r. rewrite (anc_lin L M nlat nphi w HM) by (auto; apply len_syc). f_equal.
      apply (anc_syc b L M nlat nphi ct HM HL Hphi Lct w lm Hw Llm). apply len_anc. }
    assert (E' : forall j, (j < K)%nat -> nth j (anc r) (0, 0) = (0, 0)).
    { intros j Hj. rewrite E, (nth_clincomb _ _ _ _ _ K) by (auto; apply len_anc). apply (f_equal2 (@pair R R)); ring. }
    destruct (lt_dec q K) as [H|H].
    - specialize (E' q H). rewrite nth_anc in E' by auto. congruence.
    - specialize (E' (q - K)%nat ltac:(lia)). rewrite nth_anc in E' by lia. replace (K + (q - K))%nat with q in E' by lia. congruence. }
  unfold ip. rewrite (dot_ext (N + N) (fl (syc c)) _ (fl r) (fl r) (fun i Hi => fl_syc c i Lc Hi) (fun i _ => eq_refl)).
  rewrite dot_sum. apply Rsum_zero. intros k Hk.
  rewrite (dot_ext (N + N) (T k) _ (fl r) (fl r) (fun i Hi => T_dual k i Hk Hi) (fun i _ => eq_refl)).
  rewrite dot_sum. rewrite Rsum_zero; [ring|]. intros q Hq. rewrite Z by auto. ring.
Qed.

(** the analysis commutes with isometries that preserve the set of sampled functions *)
Lemma anc_iso (sg sg' u u' : list (R * R) -> list (R * R)) :
  (forall v, length v = N -> length (sg v) = N) ->
  (forall v v', length v = N -> length v' = N -> sg (clincomb 1 v 1 v') = clincomb 1 (sg v) 1 (sg v')) ->
  (forall v v', length v = N -> length v' = N -> ip v (sg v') = ip (sg' v) v') ->
  (forall c, length c = K -> length (u c) = K /\ sg (syc c) = syc (u c)) ->
  (forall c, length c = K -> length (u' c) = K /\ sg' (syc c) = syc (u' c)) ->
  forall v, length v = N -> anc (sg v) = u (anc v).
Proof.
  intros S1 S2 S3 S4 S5 v Lv. set (r := clincomb 1 v (-1) (syc (anc v))).
  assert (Lr : length r = N) by (unfold r; apply clincomb_length; auto; apply len_syc).
  assert (Ev : v = clincomb 1 r 1 (syc (anc v))).
  { apply (nth_ext _ _ (0, 0) (0, 0)).
    - rewrite Lv. symmetry. apply clincomb_length; auto. apply len_syc.
    - intros i Hi. rewrite Lv in Hi. rewrite (nth_clincomb _ _ _ _ _ N) by (auto; apply len_syc). unfold r.
      rewrite (nth_clincomb _ _ _ _ _ N) by (auto; apply len_syc). cbn [fst snd]. rewrite (surjective_pairing (nth i v (0, 0))) at 1. apply (f_equal2 (@pair R R)); ring. }
  assert (Pr : perp (sg r)).
  { intros c Lc. rewrite S3 by (auto; apply len_syc). destruct (S5 c Lc) as [L5 ->]. now apply rest_perp. }
  rewrite Ev at 1. rewrite S2 by (auto; apply len_syc). destruct (S4 (anc v) (len_anc v)) as [L4 ->].
  rewrite (anc_lin L M nlat nphi w HM) by (rewrite ?len_syc; auto).
  rewrite (anc_syc b L M nlat nphi ct HM HL Hphi Lct w lm Hw Llm) by auto.
  apply (nth_ext _ _ (0, 0) (0, 0)).
  - rewrite L4. apply clincomb_length; auto. apply len_anc.
  - intros j Hj. rewrite (clincomb_length _ _ _ _ K) in Hj by (auto; apply len_anc). rewrite (nth_clincomb _ _ _ _ _ K) by (auto; apply len_anc).
    rewrite perp_anc by auto. cbn [fst snd]. rewrite (surjective_pairing (nth j (u (anc v)) (0, 0))) at 3. apply (f_equal2 (@pair R R)); ring.
Qed.

(** ** maps of the points *)
Section Points.
Hypothesis Hlm : forall j, (j < nlm_calc L M)%nat -> let p := nth j lm (0, 0)%nat in
  (fst p <= L)%nat /\ (snd p <= fst p)%nat /\ (snd p <= M)%nat /\ LM L (fst p) (snd p) = j.
Let h := hh b L M nlat nphi ct w lm.
Variables (s s' : ptmap) (u u' : phases).
Definition good (s s' : ptmap) : Prop := forall it ip, (it < nlat)%nat -> (ip < nphi)%nat ->
  let q := s it ip in (fst q < nlat)%nat /\ (snd q < nphi)%nat /\ s' (fst q) (snd q) = (it, ip).
Hypothesis Hs : good s s'.
Hypothesis Hs' : good s' s.
Definition moves_fields (s : ptmap) (u : phases) : Prop :=
  forall a a' : cspectrum, (forall l m, (l <= s_lmax h)%nat -> (- Z.of_nat l <= m <= Z.of_nat l)%Z -> a' l m = cm (a l m) (u l m)) ->
  forall it ip, (it < s_nlat h)%nat -> (ip < s_nphi h)%nat -> let q := s it ip in
    cre P (s_lmax h) a' (grid_theta h it) (grid_phi h ip) = cre P (s_lmax h) a (grid_theta h (fst q)) (grid_phi h (snd q)) /\
    cim P (s_lmax h) a' (grid_theta h it) (grid_phi h ip) = cim P (s_lmax h) a (grid_theta h (fst q)) (grid_phi h (snd q)).
Hypothesis Hu : moves_fields s u.
Hypothesis Hu' : moves_fields s' u'.

Definition perm (s : ptmap) (i : nat) : nat := let q := s (it_of b nlat nphi i) (ip_of b nlat nphi i) in spos b h (fst q) (snd q).
Definition act (s : ptmap) (v : list (R * R)) : list (R * R) := map (fun i => nth (perm s i) v (0, 0)) (seq 0 N).
Definition phase (u : phases) (c : list (R * R)) : list (R * R) := map (fun j => cm (nth j c (0, 0)) (u (dl j) (dm j))) (seq 0 K).
Lemma spos_of it ip : (it < nlat)%nat -> (ip < nphi)%nat ->
  (spos b h it ip < N)%nat /\ it_of b nlat nphi (spos b h it ip) = it /\ ip_of b nlat nphi (spos b h it ip) = ip.
Proof. intros Ht Hp. exact (of_pos b L M nlat nphi ct HM HL Hphi Lct it ip Ht Hp). Qed.
Lemma of_spos i : (i < N)%nat -> (it_of b nlat nphi i < nlat)%nat /\ (ip_of b nlat nphi i < nphi)%nat /\ spos b h (it_of b nlat nphi i) (ip_of b nlat nphi i) = i.
Proof.
  intros Hi. assert (nlat <> 0%nat /\ nphi <> 0%nat) as [Z1 Z2] by lia. unfold it_of, ip_of, spos. cbn [s_nlat s_nphi h hh]. destruct (contiguous b).
  - split; [now apply Nat.mod_upper_bound|]. split; [now apply Nat.div_lt_upper_bound|]. symmetry. now apply Nat.div_mod.
  - split; [apply Nat.div_lt_upper_bound; lia|]. split; [now apply Nat.mod_upper_bound|]. symmetry. now apply Nat.div_mod.
Qed.
Lemma perm_lt (t t' : ptmap) i : good t t' -> (i < N)%nat -> (perm t i < N)%nat.
Proof. intros G Hi. destruct (of_spos i Hi) as (A & B & _). destruct (G _ _ A B) as (C & D & _). now apply spos_of. Qed.
Lemma perm_inv (t t' : ptmap) i : good t t' -> (i < N)%nat -> perm t' (perm t i) = i.
Proof.
  intros G Hi. destruct (of_spos i Hi) as (A & B & E). destruct (G _ _ A B) as (C & D & F). unfold perm at 1.
  destruct (spos_of _ _ C D) as (_ & E1 & E2). unfold perm. rewrite E1, E2, F. cbn [fst snd]. exact E.
Qed.
Lemma act_nth t v i : (i < N)%nat -> nth i (act t v) (0, 0) = nth (perm t i) v (0, 0).
Proof. intros Hi. unfold act. now rewrite nth_mapseq. Qed.
Lemma act_length t v : length (act t v) = N.
Proof. unfold act. now rewrite map_length, seq_length. Qed.
Lemma phase_length p c : length (phase p c) = K.
Proof. unfold phase. now rewrite map_length, seq_length. Qed.
Lemma act_syc (t t' : ptmap) (p : phases) c : good t t' -> moves_fields t p -> length c = K -> act t (syc c) = syc (phase p c).
Proof.
  intros G Hp Lc. apply (nth_ext _ _ (0, 0) (0, 0)); [rewrite act_length; symmetry; apply len_syc|].
  intros i Hi. rewrite act_length in Hi. rewrite act_nth by auto. rewrite !nth_syc by (auto; now apply (perm_lt t t')).
  destruct (of_spos i Hi) as (A & B & _). destruct (G _ _ A B) as (C & D & _). destruct (spos_of _ _ C D) as (_ & E1 & E2).
  destruct (Hp (dc c) (dc (phase p c))) with (it := it_of b nlat nphi i) (ip := ip_of b nlat nphi i) as [F1 F2]; auto.
  { intros l m Hl Hm. change (s_lmax h) with L in Hl. unfold dc, phase. rewrite nth_mapseq by (apply (ci_K L M HM); auto).
    assert (Hk : ci l m = (l * l + Z.to_nat (m + Z.of_nat l))%nat) by (unfold ci; nia). 
    rewrite !Hk, dl_ci, dm_ci by lia. do 2 f_equal. lia. }
  unfold th_of, ph_of, perm. cbv zeta in F1, F2 |- *. rewrite E1, E2. symmetry. apply (f_equal2 (@pair R R)); assumption.
Qed.
Lemma anc_act v : length v = N -> anc (act s v) = phase u (anc v).
Proof.
  apply (anc_iso (act s) (act s') (phase u) (phase u')).
  - intros; apply act_length.
  - intros v1 v2 L1 L2. apply (nth_ext _ _ (0, 0) (0, 0)); [rewrite act_length, (clincomb_length _ _ _ _ N); auto; apply act_length|].
    intros i Hi. rewrite act_length in Hi. rewrite act_nth by auto. pose proof (perm_lt s s' i Hs Hi). rewrite !(nth_clincomb _ _ _ _ _ N); auto; try apply act_length.
    now rewrite !act_nth by auto.
  - intros v1 v2 L1 L2. rewrite !ip_sum. symmetry.
    rewrite <- (Rsum_perm N (perm s) (fun i => fst (nth i (act s' v1) (0, 0)) * fst (nth i v2 (0, 0)) + snd (nth i (act s' v1) (0, 0)) * snd (nth i v2 (0, 0)))).
    + apply Rsum_ext. intros i Hi. rewrite !act_nth by (auto; now apply (perm_lt s s')). now rewrite (perm_inv s s').
    + intros i Hi. now apply (perm_lt s s').
    + intros i j Hi Hj E. rewrite <- (perm_inv s s' i), <- (perm_inv s s' j) by auto. now rewrite E.
  - intros c Lc. split; [apply phase_length|]. now apply (act_syc s s').
  - intros c Lc. split; [apply phase_length|]. now apply (act_syc s' s).
Qed.
Lemma moved_act v v' : moved (0, 0) b h s v v' -> v' = act s v.
Proof.
  intros (Lv & Lv' & E). apply (nth_ext _ _ (0, 0) (0, 0)); [rewrite act_length; exact Lv'|]. intros i Hi. rewrite Lv' in Hi. change (s_nlat h * s_nphi h)%nat with N in Hi.
  rewrite act_nth by auto. destruct (of_spos i Hi) as (A & B & F). rewrite <- F at 1. now apply E.
Qed.
Lemma h_anc_cov : anc_covariant b h s u.
Proof.
  intros v v' Hm l m Hl Hm'. change (s_lmax h) with L in Hl. pose proof Hm as (Lv & _). rewrite (moved_act v v' Hm). change (s_anc h) with anc. rewrite anc_act by exact Lv.
  unfold phase. rewrite nth_mapseq by (apply (ci_K L M HM); auto).
  assert (Hk : ci l m = (l * l + Z.to_nat (m + Z.of_nat l))%nat) by (unfold ci; nia).
  rewrite !Hk, dl_ci, dm_ci by lia. do 2 f_equal. lia.
Qed.
Lemma an_anc v l m : (l <= L)%nat -> (m <= l)%nat -> (m <= M)%nat ->
  nth (LM L l m) (an L M nlat nphi w lm v) (0, 0) = nth (ci l (Z.of_nat m)) (anc (map (fun x => (x, 0)) v)) (0, 0).
Proof.
  intros Hl Hm HmM. assert (Hj : (LM L l m < nlm_calc L M)%nat) by (now apply LM_lt).
  unfold an. rewrite nth_mapseq by auto. destruct (Hlm _ Hj) as (A & B & _ & E). cbv zeta in *.
  destruct (LM_inj L _ _ _ _ A Hl B Hm E) as [-> ->]. reflexivity.
Qed.
Lemma h_an_cov : an_covariant b h s u.
Proof.
  intros v v' Hm l m Hl Hml HmM. change (s_lmax h) with L in *. change (s_mmax h) with M in *. change (s_an h) with (an L M nlat nphi w lm).
  rewrite !an_anc by auto.
  assert (B : (- Z.of_nat l <= Z.of_nat m <= Z.of_nat l)%Z) by lia.
  exact (h_anc_cov (embed v) (embed v') (embed_moved b h s v v' Hm) l (Z.of_nat m) Hl B).
Qed.
End Points.

(** ** conjugation *)
Section Conj.
Let h := hh b L M nlat nphi ct w lm.
Definition cj (x : R * R) : R * R := (fst x, - snd x).
Definition cjc (c : list (R * R)) : list (R * R) := map (fun j => let x := nth (ci (dl j) (- dm j)) c (0, 0) in (sgm (dm j) * fst x, - (sgm (dm j) * snd x))) (seq 0 K).
Lemma cj_nth v i : nth i (map cj v) (0, 0) = cj (nth i v (0, 0)).
Proof. rewrite <- (map_nth cj). unfold cj at 3. cbn [fst snd]. f_equal. f_equal. ring. Qed.
Lemma cjc_nth c l m : (l <= L)%nat -> (- Z.of_nat l <= m <= Z.of_nat l)%Z ->
  nth (ci l m) (cjc c) (0, 0) = (sgm m * fst (nth (ci l (- m)) c (0, 0)), - (sgm m * snd (nth (ci l (- m)) c (0, 0)))).
Proof.
  intros Hl Hm. unfold cjc. rewrite nth_mapseq by (apply (ci_K L M HM); auto).
  assert (Hk : ci l m = (l * l + Z.to_nat (m + Z.of_nat l))%nat) by (unfold ci; nia).
  rewrite !Hk, dl_ci, dm_ci by lia. replace (Z.of_nat (Z.to_nat (m + Z.of_nat l)) - Z.of_nat l)%Z with m by lia. reflexivity.
Qed.
Lemma cj_syc c : length c = K -> map cj (syc c) = syc (cjc c).
Proof.
  intros Lc. apply (nth_ext _ _ (0, 0) (0, 0)); [rewrite map_length, !len_syc; auto|]. intros i Hi. rewrite map_length, len_syc in Hi.
  rewrite cj_nth, !nth_syc by auto. unfold cj. cbn [fst snd].
  destruct (conj_field b h 8 P (fun _ => le_n 8) ltac:(lia) 1 (dc c) (dc (cjc c)) (th_of b nlat nphi ct i) (ph_of b nlat nphi i)) as [E1 E2].
  { intros l m Hl Hm. unfold dc. rewrite cjc_nth by (auto; lia). rewrite Z.opp_involutive.
    assert (S : sgm (- m) = sgm m) by (unfold sgm; now rewrite Z.even_opp). rewrite S. apply (f_equal2 (@pair R R)); ring. }
  change (s_lmax h) with L in E1, E2. rewrite E1, E2. apply (f_equal2 (@pair R R)); ring.
Qed.
Lemma h_conj : anc_conjugate h.
Proof.
  intros v Lv l m Hl Hm c. unfold c. change (s_anc h) with anc. change (s_lmax h) with L in *. change (s_nspat h) with N in Lv.
  set (ev := map (fun x : R => (x, 0)) v). assert (Le : length ev = N) by (unfold ev; now rewrite map_length).
  assert (E : anc (map cj ev) = cjc (anc ev)).
  { apply (anc_iso (map cj) (map cj) cjc cjc); auto.
    - intros; now rewrite map_length.
    - intros v1 v2 L1 L2. apply (nth_ext _ _ (0, 0) (0, 0)); [rewrite map_length, !(clincomb_length _ _ _ _ N); rewrite ?map_length; auto|].
      intros i Hi. rewrite map_length, (clincomb_length _ _ _ _ N) in Hi by auto. rewrite cj_nth, !(nth_clincomb _ _ _ _ _ N), !cj_nth by (rewrite ?map_length; auto).
      unfold cj. cbn [fst snd]. apply (f_equal2 (@pair R R)); ring.
    - intros v1 v2 L1 L2. rewrite !ip_sum. apply Rsum_ext. intros i Hi. rewrite !cj_nth. unfold cj. cbn [fst snd]. ring.
    - intros c0 Lc. split; [unfold cjc; now rewrite map_length, seq_length|]. now apply cj_syc.
    - intros c0 Lc. split; [unfold cjc; now rewrite map_length, seq_length|]. now apply cj_syc. }
  assert (E0 : map cj ev = ev).
  { unfold ev. rewrite map_map. apply map_ext. intros x. unfold cj. cbn [fst snd]. now rewrite Ropp_0. }
  rewrite E0 in E. rewrite E at 1. rewrite cjc_nth by (auto; lia). rewrite Z.opp_involutive.
  assert (S : sgm (- m) = sgm m) by (unfold sgm; now rewrite Z.even_opp). rewrite S. unfold sgm.
  assert (X : forall x : R, 1 * x = x /\ -1 * x = - x /\ - (1 * x) = - x /\ - (-1 * x) = x) by (intros; repeat split; ring).
  destruct (Z.even m); apply (f_equal2 (@pair R R)); apply X.
Qed.
End Conj.
End Iso.
