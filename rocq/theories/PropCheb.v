(** * Properties C15-C20: the Chebyshev radial operators (exact arithmetic; FFTW by its documented
    definition). *)
From Coq Require Import Reals Lra List.
From Coquelicot Require Import Coquelicot.
From Verif Require Import Base Arith BaseLemmas PMake MCheb Spec PSum PFdR PFd PropFd PropFd2 PCheb PCheb2.
Local Open Scope R_scope.

(** the Chebyshev coordinate in [-1,1] of a radius *)
Definition unit_coord (lower upper x : R) : R := (2 * x - (lower + upper)) / (upper - lower).
(** [v] are the samples of [f] at the points of [g] *)
Definition cheb_samples (g : cheb R) (n : nat) (f : R -> R) (v : list R) : Prop :=
  length v = n /\ forall i x, (i < n)%nat -> cheb_pt g i = Ok x -> nth i v 0 = f x.

Lemma unit_coord_pt b n lower upper g i x : Cheb_make b n lower upper = Ok g -> (2 <= n)%nat -> lower <> upper ->
  (i < n)%nat -> cheb_pt g i = Ok x -> unit_coord lower upper x = cos (PI * INR i / INR (n - 1)).
Proof.
  intros E Hn Hl Hi Hx. rewrite (cheb_pt_val b n lower upper) in Hx by auto. injection Hx as <-.
  unfold unit_coord. field. lra.
Qed.
Lemma pt_exists b n lower upper g i : Cheb_make b n lower upper = Ok g -> (2 <= n)%nat -> (i < n)%nat -> exists x, cheb_pt g i = Ok x.
Proof. intros. eexists. eapply cheb_pt_val; eauto. Qed.

Lemma map_nth_seq (v : list R) n : length v = n -> map (fun i => nth i v 0) (seq 0 n) = v.
Proof.
  intros H. apply (vec_ext _ _ 0); rewrite map_length, seq_length; auto. intros i Hi. now rewrite nth_map_seq.
Qed.
Lemma ana_ext N u v k : (forall j, (j <= N)%nat -> u j = v j) -> ana N u k = ana N v k.
Proof. intros H. unfold ana. f_equal. apply Rsum_ext. intros j Hj. rewrite H by lia. reflexivity. Qed.
Lemma syn_ext N u v k : (forall j, (j <= N)%nat -> u j = v j) -> syn N u k = syn N v k.
Proof. intros H. unfold syn. apply Rsum_ext. intros j Hj. rewrite H by lia. reflexivity. Qed.

(** samples of T_k *)
Lemma samples_T b n lower upper g k v : Cheb_make b n lower upper = Ok g -> (2 <= n)%nat -> lower <> upper ->
  cheb_samples g n (fun x => chebT k (unit_coord lower upper x)) v ->
  length v = n /\ forall i, (i < n)%nat -> nth i v 0 = cc (n - 1) k i.
Proof.
  intros E Hn Hl [L H]. split; auto. intros i Hi. destruct (pt_exists _ _ _ _ _ i E Hn Hi) as (x & Hx).
  rewrite (H i x Hi Hx), (unit_coord_pt _ _ _ _ _ _ _ E Hn Hl Hi Hx), chebT_cos. unfold cc. f_equal. field.
  apply not_0_INR. lia.
Qed.

Lemma nth_map_scal a (v : list R) i : nth i (map (Rmult a) v) 0 = a * nth i v 0.
Proof. revert i; induction v as [|x v IH]; intros [|i]; simpl; auto; ring. Qed.

(** ** C15 *)
Theorem C15_to_po_after_to_ch b n lower upper g po ch po' :
  (2 <= n)%nat -> Cheb_make b n lower upper = Ok g -> length po = n -> length ch = n -> length po' = n ->
  exists a a', to_ch b g po ch = Ok a /\ length a = n /\ to_po b g a po' = Ok (a', po).
Proof.
  intros Hn E Hp Hc Hp'. pose proof (make_wf _ _ _ _ _ Hn E) as W.
  do 2 eexists. split; [eapply to_ch_val; eauto|]. split; [now rewrite map_length, seq_length|].
  rewrite (to_po_val b g n lower upper) by (auto; now rewrite map_length, seq_length). f_equal. f_equal.
  transitivity (map (fun i => nth i po 0) (seq 0 n)); [|now apply map_nth_seq]. apply map_ext_in. intros i Hi. apply in_seq in Hi.
  rewrite <- (syn_ana (n - 1) ltac:(lia) (fun j => nth j po 0) i) by lia. apply syn_ext. intros j Hj.
  now rewrite nth_map_seq by lia.
Qed.
Theorem C15_to_ch_after_to_po b n lower upper g ch po ch' :
  (2 <= n)%nat -> Cheb_make b n lower upper = Ok g -> length po = n -> length ch = n -> length ch' = n ->
  exists h v, to_po b g ch po = Ok (h, v) /\ length v = n /\ to_ch b g v ch' = Ok ch.
Proof.
  intros Hn E Hp Hc Hc'. pose proof (make_wf _ _ _ _ _ Hn E) as W.
  do 2 eexists. split; [eapply to_po_val; eauto|]. split; [now rewrite map_length, seq_length|].
  rewrite (to_ch_val b g n lower upper) by (auto; now rewrite map_length, seq_length). f_equal.
  transitivity (map (fun i => nth i ch 0) (seq 0 n)); [|now apply map_nth_seq]. apply map_ext_in. intros i Hi. apply in_seq in Hi.
  rewrite <- (ana_syn (n - 1) ltac:(lia) (fun j => nth j ch 0) i) by lia. apply ana_ext. intros j Hj.
  now rewrite nth_map_seq by lia.
Qed.
Theorem C15_to_ch_of_T b n lower upper g k v ch :
  (2 <= n)%nat -> Cheb_make b n lower upper = Ok g -> lower <> upper -> (k < n)%nat -> length ch = n ->
  cheb_samples g n (fun x => chebT k (unit_coord lower upper x)) v ->
  to_ch b g v ch = Ok (unit_vec n k).
Proof.
  intros Hn E Hl Hk Hc Hv. pose proof (make_wf _ _ _ _ _ Hn E) as W.
  destruct (samples_T _ _ _ _ _ _ _ E Hn Hl Hv) as (L & V).
  rewrite (to_ch_val b g n lower upper) by auto. f_equal. apply map_ext_in. intros i Hi. apply in_seq in Hi.
  rewrite (ana_ext _ _ (syn (n - 1) (fun j => if Nat.eqb j k then 1 else 0))).
  - now rewrite ana_syn by lia.
  - intros j Hj. rewrite V by lia. unfold syn. rewrite (Rsum_single _ _ k); [|lia|].
    + rewrite Nat.eqb_refl. now rewrite Rmult_1_l.
    + intros l _ Hlk. destruct (Nat.eqb_spec l k); [lia|ring].
Qed.

(** ** C16 *)
Theorem C16_to_po_consumes b n lower upper g ch po i :
  (3 <= n)%nat -> Cheb_make b n lower upper = Ok g -> length ch = n -> length po = n ->
  (0 < i < n - 1)%nat -> nth i ch 0 <> 0 ->
  exists ch1 v1 ch2 v2, to_po b g ch po = Ok (ch1, v1) /\ to_po b g ch1 po = Ok (ch2, v2) /\
    nth i ch1 0 = nth i ch 0 / 2 /\ v1 <> v2.
Proof.
  intros Hn E Hc Hp Hi Hnz. assert (Hn2 : (2 <= n)%nat) by lia. pose proof (make_wf _ _ _ _ _ Hn2 E) as W.
  assert (HL : length (halved n ch) = n) by (unfold halved; now rewrite map_length, seq_length).
  assert (Hh : nth i (halved n ch) 0 = nth i ch 0 / 2).
  { unfold halved. rewrite nth_map_seq by lia. destruct (Nat.eqb_spec i 0), (Nat.eqb_spec i (n - 1)); cbn [orb]; auto; lia. }
  destruct (C15_to_ch_after_to_po b n lower upper g ch po ch Hn2 E Hp Hc Hc) as (h1 & v1 & A1 & L1 & B1).
  destruct (C15_to_ch_after_to_po b n lower upper g (halved n ch) po ch Hn2 E Hp HL Hc) as (h2 & v2 & A2 & L2 & B2).
  exists h1, v1, h2, v2. assert (h1 = halved n ch).
  { rewrite (to_po_val b g n lower upper) in A1 by auto. injection A1 as <- _. reflexivity. }
  subst h1. repeat split; auto. intros ->. rewrite B1 in B2. injection B2 as B2. rewrite <- B2 in Hh. lra.
Qed.

(** ** C17 *)
Lemma der_of_chebsum b n lower upper g v dv f e :
  (2 <= n)%nat -> Cheb_make b n lower upper = Ok g -> lower <> upper -> length dv = n ->
  (forall x, f x = chebsum n e (unit_coord lower upper x)) -> cheb_samples g n f v ->
  exists out, cheb_der b g v dv = Ok out /\ length out = n /\
   forall i x, (i < n)%nat -> cheb_pt g i = Ok x ->
     nth i out 0 = Rsum (n - 2) (fun k => e k * (INR k * Um k (unit_coord lower upper x))) / ((upper - lower) / 2).
Proof.
  intros Hn E Hl Hd Hf [L V]. pose proof (make_wf _ _ _ _ _ Hn E) as W.
  eexists. split; [eapply cheb_der_val; eauto|]. split; [now rewrite map_length, seq_length|].
  intros i x Hi Hx. rewrite nth_map_seq by auto. f_equal.
  rewrite (unit_coord_pt _ _ _ _ _ _ _ E Hn Hl Hi Hx). apply Rsum_ext. intros k Hk. f_equal.
  rewrite (ana_ext _ _ (syn (n - 1) e)); [apply ana_syn; lia|].
  intros j Hj. destruct (pt_exists _ _ _ _ _ j E Hn ltac:(lia)) as (z & Hz).
  rewrite (V j z ltac:(lia) Hz), Hf. unfold chebsum, syn. replace (S (n - 1)) with n by lia.
  rewrite (unit_coord_pt _ _ _ _ _ j z E Hn Hl ltac:(lia) Hz). apply Rsum_ext. intros l Hl'.
  rewrite chebT_cos. unfold cc. f_equal. f_equal. field. apply not_0_INR; lia.
Qed.

Theorem C17_der_exact b n lower upper g c v dv :
  (2 <= n)%nat -> Cheb_make b n lower upper = Ok g -> lower <> upper -> length dv = n ->
  (length c <= n - 2)%nat ->                       (* degree <= n-3 *)
  cheb_samples g n (poly c) v ->
  exists out, cheb_der b g v dv = Ok out /\ length out = n /\
   forall i x, (i < n)%nat -> cheb_pt g i = Ok x -> nth i out 0 = Derive (poly c) x.
Proof.
  intros Hn E Hl Hd Hc Hv.
  destruct (poly_shift c ((lower + upper) / 2)) as (d & Ld & Ed).
  destruct (poly_scale d ((upper - lower) / 2)) as (d' & Ld' & Ed').
  destruct (poly_chebsum d') as (e & He).
  set (e' := fun k => if Nat.ltb k (length c) then e k else 0).
  assert (EXT : forall m y, (length c <= m)%nat -> chebsum m e' y = chebsum (length c) e y).
  { intros m y Hm. unfold chebsum. replace m with (length c + (m - length c))%nat by lia. rewrite Rsum_split.
    rewrite (Rsum_zero (m - length c)).
    - rewrite Rplus_0_r. apply Rsum_ext. intros i Hi. unfold e'. destruct (Nat.ltb_spec i (length c)); [reflexivity|lia].
    - intros i Hi. unfold e'. destruct (Nat.ltb_spec (length c + i) (length c)); [lia|ring]. }
  assert (F : forall x, poly c x = chebsum (length c) e (unit_coord lower upper x)).
  { intros x. rewrite <- Ld, <- Ld', <- He, <- Ed', <- Ed. f_equal. unfold unit_coord. field. lra. }
  destruct (der_of_chebsum b n lower upper g v dv (poly c) e' Hn E Hl Hd) as (out & Eo & Lo & Do).
  { intros x. rewrite EXT by lia. apply F. }
  { exact Hv. }
  exists out. repeat split; auto. intros i x Hi Hx. rewrite (Do i x Hi Hx). symmetry. apply is_derive_unique.
  apply (is_derive_ext (fun x => chebsum (n - 2) e' (unit_coord lower upper x))).
  { intros t. rewrite EXT by lia. symmetry. apply F. }
  set (D := Rsum (n - 2) (fun k => e' k * (INR k * Um k (unit_coord lower upper x)))).
  replace (D / ((upper - lower) / 2)) with (scal (2 / (upper - lower)) D).
  2:{ unfold scal; simpl; unfold mult; simpl. field. lra. }
  apply (is_derive_comp (chebsum (n - 2) e') (unit_coord lower upper) x D).
  - apply chebsum_is_derive.
  - unfold unit_coord. auto_derive; [auto|]. field. lra.
Qed.
Example C17_nonvacuous : exists g v, Cheb_make (Build true true false) 5 0 2 = Ok g /\
  (length [1;2;3] <= 5 - 2)%nat /\ cheb_samples g 5 (poly [1;2;3]) v.
Proof.
  eexists. exists (map (fun i => poly [1;2;3] ((2 - 0) / 2 * cos (PI * INR i / INR (5 - 1)) + (2 + 0) / 2)) (seq 0 5)).
  split; [apply Cheb_make_ok; left; lia|]. split; [simpl; lia|]. split; [reflexivity|].
  intros i x Hi Hx. rewrite (cheb_pt_val (Build true true false) 5 0 2) in Hx; [|apply Cheb_make_ok; left; lia|lia|lia].
  injection Hx as <-. now rewrite nth_map_seq.
Qed.

(** ** C18 *)
Theorem C18_top_modes_dropped b n lower upper g k v dv :
  (3 <= n)%nat -> Cheb_make b n lower upper = Ok g -> lower <> upper -> length dv = n ->
  (k = n - 1 \/ k = n - 2)%nat ->
  cheb_samples g n (fun x => chebT k (unit_coord lower upper x)) v ->
  exists out, cheb_der b g v dv = Ok out /\ length out = n /\ forall i, (i < n)%nat -> nth i out 0 = 0.
Proof.
  intros Hn E Hl Hd Hk Hv. assert (Hn2 : (2 <= n)%nat) by lia.
  set (e := fun j => if Nat.eqb j k then 1 else 0).
  assert (He : forall x, chebT k (unit_coord lower upper x) = chebsum n e (unit_coord lower upper x)).
  { intros x. unfold chebsum. rewrite (Rsum_single n _ k); [|lia|].
    - unfold e. rewrite Nat.eqb_refl. ring.
    - intros i _ Hik. unfold e. destruct (Nat.eqb_spec i k); [lia|ring]. }
  destruct (der_of_chebsum b n lower upper g v dv _ e Hn2 E Hl Hd He Hv) as (out & Eo & Lo & Do).
  exists out. repeat split; auto. intros i Hi. destruct (pt_exists _ _ _ _ _ i E Hn2 Hi) as (x & Hx).
  rewrite (Do i x Hi Hx). rewrite Rsum_zero; [unfold Rdiv; ring|].
  intros j Hj. unfold e. destruct (Nat.eqb_spec j k); [lia|ring].
Qed.
(** the derivative that is lost: T_k'(1) = k^2 at the outer end point, for every k >= 1 *)
Lemma Um_1 k : Um k 1 = INR k.
Proof.
  induction k as [| |k A B] using pair_ind; [reflexivity|reflexivity|]. rewrite Um_SS, A, B, !S_INR. ring.
Qed.
Theorem C18_exact_to_degree_n_minus_1_refuted b n lower upper g dv :
  (3 <= n)%nat -> Cheb_make b n lower upper = Ok g -> lower < upper -> length dv = n ->
  exists v out x, cheb_samples g n (fun x => chebT (n - 1) (unit_coord lower upper x)) v /\
    cheb_der b g v dv = Ok out /\ cheb_pt g 0 = Ok x /\
    Derive (fun x => chebT (n - 1) (unit_coord lower upper x)) x = INR (n - 1) ^ 2 * (2 / (upper - lower)) /\
    nth 0 out 0 <> Derive (fun x => chebT (n - 1) (unit_coord lower upper x)) x.
Proof.
  intros Hn E Hl Hd. assert (Hn2 : (2 <= n)%nat) by lia. assert (Hne : lower <> upper) by lra.
  set (v := map (fun i => chebT (n - 1) (cos (PI * INR i / INR (n - 1)))) (seq 0 n)).
  assert (Hv : cheb_samples g n (fun x => chebT (n - 1) (unit_coord lower upper x)) v).
  { split; [unfold v; now rewrite map_length, seq_length|]. intros i x Hi Hx. unfold v. rewrite nth_map_seq by auto.
    now rewrite (unit_coord_pt _ _ _ _ _ _ _ E Hn2 Hne Hi Hx). }
  destruct (C18_top_modes_dropped b n lower upper g (n - 1) v dv Hn E Hne Hd (or_introl eq_refl) Hv) as (out & Eo & _ & Z).
  destruct (pt_exists _ _ _ _ _ 0%nat E Hn2 ltac:(lia)) as (x & Hx).
  exists v, out, x. split; auto. split; auto. split; auto.
  assert (D : Derive (fun x => chebT (n - 1) (unit_coord lower upper x)) x = INR (n - 1) ^ 2 * (2 / (upper - lower))).
  { apply is_derive_unique.
    replace (INR (n - 1) ^ 2 * (2 / (upper - lower))) with (scal (2 / (upper - lower)) (INR (n - 1) * Um (n - 1) (unit_coord lower upper x))).
    - apply (is_derive_comp (chebT (n - 1)) (unit_coord lower upper) x (INR (n - 1) * Um (n - 1) (unit_coord lower upper x))); [apply chebT_is_derive|].
      unfold unit_coord. auto_derive; [auto|]. field. lra.
    - rewrite (unit_coord_pt _ _ _ _ _ 0%nat _ E Hn2 Hne ltac:(lia) Hx). simpl (INR 0).
      replace (PI * 0 / INR (n - 1)) with 0 by (field; apply not_0_INR; lia). rewrite cos_0, Um_1.
      unfold scal; simpl; unfold mult; simpl. ring. }
  split; auto. rewrite D, (Z 0%nat) by lia.
  assert (0 < INR (n - 1)) by (apply lt_0_INR; lia). assert (0 < 2 / (upper - lower)) by (apply Rdiv_lt_0_compat; lra).
  apply Rlt_not_eq. apply Rmult_lt_0_compat; [nra|lra].
Qed.

(** ** C19 *)
Definition cheb_damp (n k : nat) : R := exp (-40 * (INR k / INR n) ^ 16).
Theorem C19_filter_modes b n lower upper g k v :
  (2 <= n)%nat -> Cheb_make b n lower upper = Ok g -> lower <> upper -> (k < n)%nat ->
  cheb_samples g n (fun x => chebT k (unit_coord lower upper x)) v ->
  cheb_filter b g v = Ok (map (Rmult (cheb_damp n k)) v).
Proof.
  intros Hn E Hl Hk Hv. pose proof (make_wf _ _ _ _ _ Hn E) as W.
  destruct (samples_T _ _ _ _ _ _ _ E Hn Hl Hv) as (L & V).
  rewrite (cheb_filter_val b g n lower upper) by auto. f_equal.
  apply (vec_ext _ _ 0); rewrite !map_length, seq_length; auto. intros i Hi. rewrite nth_map_seq by auto.
  rewrite nth_map_scal, V by auto.
  unfold syn. rewrite (Rsum_single _ _ k); [|lia|].
  - rewrite (ana_ext _ _ (syn (n - 1) (fun j => if Nat.eqb j k then 1 else 0))).
    + rewrite ana_syn by lia. rewrite Nat.eqb_refl. unfold cheb_damp. ring.
    + intros j Hj. rewrite V by lia. unfold syn. rewrite (Rsum_single _ _ k); [|lia|].
      * rewrite Nat.eqb_refl. ring.
      * intros l _ Hlk. destruct (Nat.eqb_spec l k); [lia|ring].
  - intros m Hm Hmk. rewrite (ana_ext _ _ (syn (n - 1) (fun j => if Nat.eqb j k then 1 else 0))).
    + rewrite ana_syn by lia. destruct (Nat.eqb_spec m k); [lia|]. ring.
    + intros j Hj. rewrite V by lia. unfold syn. rewrite (Rsum_single _ _ k); [|lia|].
      * rewrite Nat.eqb_refl. ring.
      * intros l _ Hlk. destruct (Nat.eqb_spec l k); [lia|ring].
Qed.
Lemma ana_lin N a u c w k : ana N (fun j => a * u j + c * w j) k = a * ana N u k + c * ana N w k.
Proof.
  unfold ana. rewrite (Rsum_ext (S N) (fun j => wt N j * ((a * u j + c * w j) * cc N j k))
     (fun j => a * (wt N j * (u j * cc N j k)) + c * (wt N j * (w j * cc N j k)))) by (intros; ring).
  rewrite Rsum_add, !Rsum_scal. ring.
Qed.
Lemma syn_lin N a u c w k : syn N (fun j => a * u j + c * w j) k = a * syn N u k + c * syn N w k.
Proof.
  unfold syn. rewrite (Rsum_ext (S N) _ (fun j => a * (u j * cc N j k) + c * (w j * cc N j k))) by (intros; ring).
  now rewrite Rsum_add, !Rsum_scal.
Qed.
Theorem C19_filter_linear b n lower upper g a v c w :
  (2 <= n)%nat -> Cheb_make b n lower upper = Ok g -> length v = n -> length w = n ->
  exists ov ow, cheb_filter b g v = Ok ov /\ cheb_filter b g w = Ok ow /\
    cheb_filter b g (lincomb a v c w) = Ok (lincomb a ov c ow).
Proof.
  intros Hn E Hv Hw. pose proof (make_wf _ _ _ _ _ Hn E) as W. pose proof (lincomb_length a v c w n Hv Hw) as HL.
  do 2 eexists. split; [eapply cheb_filter_val; eauto|]. split; [eapply cheb_filter_val; eauto|].
  rewrite (cheb_filter_val b g n lower upper) by auto. f_equal.
  apply (vec_ext _ _ 0); [rewrite (lincomb_length _ _ _ _ n); rewrite ?map_length, ?seq_length; auto|].
  rewrite map_length, seq_length. intros i Hi.
  rewrite (nth_lincomb _ _ _ _ _ n) by (rewrite ?map_length, ?seq_length; auto). rewrite !nth_map_seq by auto.
  rewrite <- syn_lin. apply syn_ext. intros j Hj.
  rewrite (ana_ext _ _ (fun j => a * nth j v 0 + c * nth j w 0)).
  - rewrite ana_lin. ring.
  - intros l Hl. rewrite (nth_lincomb _ _ _ _ _ n) by (auto; lia). reflexivity.
Qed.
Theorem C19_factors n : (2 <= n)%nat ->
  cheb_damp n 0 = 1 /\ (forall k, 0 < cheb_damp n k <= 1) /\ (forall j k, (j < k)%nat -> cheb_damp n k < cheb_damp n j).
Proof.
  intros Hn. assert (H0 : 0 < INR n) by (apply lt_0_INR; lia).
  assert (Hmon : forall j k, (j < k)%nat -> (INR j / INR n) ^ 16 < (INR k / INR n) ^ 16).
  { intros j k H. assert (INR j / INR n < INR k / INR n).
    { apply Rmult_lt_compat_r; [now apply Rinv_0_lt_compat| now apply lt_INR]. }
    assert (0 <= INR j / INR n) by (apply Rdiv_le_0_compat; [apply pos_INR|lra]).
    assert (P : forall x y, 0 <= x -> x < y -> x ^ 2 < y ^ 2) by (intros; nra).
    replace 16%nat with (2 * (2 * (2 * 2)))%nat by reflexivity. rewrite !pow_mult.
    repeat (apply P; [try (repeat apply pow_le; assumption)|]). exact H1. }
  assert (E0 : cheb_damp n 0 = 1).
  { unfold cheb_damp. simpl (INR 0). replace (0 / INR n) with 0 by (field; lra). rewrite pow_ne_zero, Rmult_0_r by lia. apply exp_0. }
  assert (D : forall j k, (j < k)%nat -> cheb_damp n k < cheb_damp n j).
  { intros j k H. unfold cheb_damp. apply exp_increasing. specialize (Hmon j k H). lra. }
  repeat split; auto.
  - apply exp_pos.
  - destruct k as [|k]; [rewrite E0; lra|]. rewrite <- E0. left. apply D. lia.
Qed.
Example C19_nonvacuous : cheb_damp 48 47 < 1 /\ 0 < cheb_damp 48 47.
Proof. destruct (C19_factors 48 ltac:(lia)) as (A & B & C). split; [rewrite <- A; apply C; lia| apply B]. Qed.
Theorem C19_constants_unchanged b n lower upper g c : (2 <= n)%nat -> Cheb_make b n lower upper = Ok g -> lower <> upper ->
  cheb_filter b g (repeat c n) = Ok (repeat c n).
Proof.
  intros Hn E Hl. set (o := repeat 1 n).
  assert (Ho : length o = n) by apply repeat_length.
  assert (N0 : forall (x : R) i, (i < n)%nat -> nth i (repeat x n) 0 = x).
  { intros x i Hi. rewrite (nth_indep _ 0 x) by (rewrite repeat_length; auto). apply nth_repeat. }
  assert (F1 : cheb_filter b g o = Ok o).
  { rewrite (C19_filter_modes b n lower upper g 0 o Hn E Hl); [|lia|].
    - f_equal. rewrite <- (map_id o) at 2. apply map_ext. intros x. destruct (C19_factors n Hn) as (-> & _). ring.
    - split; auto. intros i x Hi _. rewrite chebT_0. now apply N0. }
  destruct (C19_filter_linear b n lower upper g c o 0 o Hn E Ho Ho) as (ov & ow & E1 & E2 & E3).
  rewrite F1 in E1, E2. injection E1 as <-. injection E2 as <-.
  replace (lincomb c o 0 o) with (repeat c n) in E3; auto.
  apply (vec_ext _ _ 0); rewrite repeat_length; [symmetry; now apply lincomb_length|].
  intros i Hi. rewrite (nth_lincomb _ _ _ _ _ n) by auto. unfold o. rewrite !N0 by auto. ring.
Qed.

(** ** C20 *)
Section C20.
Context {F : Type} {AF : Arith F}.
Theorem C20_too_few_points b n (lower upper : F) : (n < 2)%nat ->
  (ndebug b = false -> Cheb_make b n lower upper = Abort) /\
  (ndebug b = true -> exists g, Cheb_make b n lower upper = Ok g /\
     forall v w, length v = n -> length w = n ->
       to_ch b g v w = UB /\ to_po b g v w = UB /\ cheb_der b g v w = UB /\ cheb_filter b g v = UB).
Proof.
  intros Hn. split; [now apply Cheb_make_abort|]. intros Hd. eexists. split; [apply Cheb_make_ok; auto|].
  assert (Hp : Nat.leb 2 n = false) by (apply Nat.leb_gt; auto).
  set (g := Chb _ _ _ _ _ _ _). intros v w Hv Hw.
  assert (TC : forall v w, to_ch b g v w = UB).
  { intros v' w'. unfold to_ch. rewrite !assert_ndebug by auto. cbn [bind]. unfold execute, g. cbn [ch_plan ch_n].
    now rewrite Hp. }
  split; [apply TC|]. split.
  - unfold to_po. rewrite !assert_ndebug by auto. cbn [bind]. change (ch_n g) with n.
    destruct n as [|[|n]]; try lia.
    + rewrite for_ub; [reflexivity| |].
      * apply wsub_big; lia.
      * destruct v; [reflexivity|discriminate].
    + change (wsub 1 1) with 0%nat. rewrite for_nil by lia. cbn [bind]. unfold execute, g. cbn [ch_plan]. now rewrite Hp.
  - split.
    + unfold cheb_der. rewrite !assert_ndebug by auto. cbn [bind]. now rewrite TC.
    + unfold cheb_filter. rewrite !assert_ndebug by auto. cbn [bind]. now rewrite TC.
Qed.
End C20.
Theorem C20_enough_points b n (lower upper : R) : (2 <= n)%nat ->
  exists g, Cheb_make b n lower upper = Ok g /\
    forall v w, length v = n -> length w = n ->
     (exists a, to_ch b g v w = Ok a) /\ (exists a, to_po b g v w = Ok a) /\
     (exists a, cheb_der b g v w = Ok a) /\ (exists a, cheb_filter b g v = Ok a).
Proof.
  intros Hn. eexists. split; [apply Cheb_make_ok; auto|]. intros v w Hv Hw.
  pose proof (make_wf b n lower upper _ Hn (Cheb_make_ok b n lower upper (or_introl Hn))) as W.
  split; [eexists; eapply to_ch_val; eauto|]. split; [eexists; eapply to_po_val; eauto|].
  split; [eexists; eapply cheb_der_val; eauto| eexists; eapply cheb_filter_val; eauto].
Qed.
Example C15_C16_C20_nonvacuous : exists g, Cheb_make (Build true false false) 3 (-1) 1 = Ok g /\
  length [0; 1; 0] = 3%nat /\ (0 < 1 < 3 - 1)%nat /\ nth 1 [0; 1; 0] 0 <> 0.
Proof. eexists. split; [apply Cheb_make_ok; left; lia|]. split; [reflexivity|]. split; [lia|]. simpl. lra. Qed.
