(** C95: in exact arithmetic the two diagnostics agree as well. *)
From Coq Require Import Reals Lra Ascii String Permutation FinFun.
From Verif Require Import Base BaseLemmas ForList Arith MFd MCheb MSphere MGrid MParams MField MEom MInit MIo MMain
  SphereSpec GridSpec RkSpec LaySpec Spec PSum PGrid PTables PMake PSphere PSphere2 PGridOp PropTables PropGridOp PConc PEom PEomOk PRk PropRk PIo PInit PRed PropRed PDriver PropDriver PLay PLayG PropLayout.
Local Open Scope nat_scope.

Definition triples (nx n m : nat) : list (nat * (nat * nat)) := list_prod (seq 0 nx) (list_prod (seq 0 n) (seq 0 m)).
Definition idx (b : build) (n m : nat) (q : nat * (nat * nat)) : nat := ix_R_th_ph b n m (fst q) (fst (snd q)) (snd (snd q)).
Lemma In_triples nx n m q : In q (triples nx n m) <-> fst q < nx /\ fst (snd q) < n /\ snd (snd q) < m.
Proof. destruct q as [a [c d]]. unfold triples. rewrite !in_prod_iff, !in_seq. cbn. lia. Qed.
Lemma idx_perm b nx n m : Permutation (seq 0 (nx * n * m)) (map (idx b n m) (triples nx n m)).
Proof.
  apply NoDup_Permutation; [apply seq_NoDup| |].
  - assert (IN : forall q, In q (triples nx n m) -> fst q < nx /\ fst (snd q) < n /\ snd (snd q) < m) by (intros q; apply In_triples).
    assert (ND : NoDup (triples nx n m)) by (unfold triples; repeat apply NoDup_list_prod; apply seq_NoDup).
    revert IN ND. generalize (triples nx n m). intros l IN ND. induction ND as [|q l Hq ND IH]; cbn [map]; [constructor|]. constructor.
    + rewrite in_map_iff. intros (q' & E & Hq'). assert (q' = q); [|congruence]. destruct (IN q ltac:(now left)) as (A1 & A2 & A3). destruct (IN q' ltac:(now right)) as (B1 & B2 & B3).
      destruct q as [a [c d]], q' as [a' [c' d']]. unfold idx in E. cbn [fst snd] in *. apply ix_R_th_ph_inj in E; auto. destruct E as (-> & -> & ->). reflexivity.
    + apply IH. intros q' Hq'. apply IN. now right.
  - intros k. rewrite in_seq, in_map_iff. split.
    + intros [_ Hk]. destruct (ix_R_th_ph_surj b nx n m k Hk) as (ix & it & ip & A1 & A2 & A3 & E). exists (ix, (it, ip)). split; [exact E|]. apply In_triples. cbn. auto.
    + intros (q & <- & Hq). apply In_triples in Hq. split; [lia|]. apply ix_R_th_ph_lt; tauto.
Qed.
Lemma Rsum_relabel b b' nx n m (T T' : nat -> R) :
  (forall ix it ip, ix < nx -> it < n -> ip < m -> T (ix_R_th_ph b n m ix it ip) = T' (ix_R_th_ph b' n m ix it ip)) ->
  Rsum (nx * n * m) T = Rsum (nx * n * m) T'.
Proof.
  intros H. rewrite <- !lsum_seq. rewrite (lsum_perm T _ _ (idx_perm b nx n m)), (lsum_perm T' _ _ (idx_perm b' nx n m)).
  assert (IN : forall q, In q (triples nx n m) -> fst q < nx /\ fst (snd q) < n /\ snd (snd q) < m) by (intros q; apply In_triples).
  revert IN. generalize (triples nx n m). intros l IN. unfold lsum. induction l as [|q l IH]; cbn [map fold_right]; [reflexivity|].
  rewrite IH by (intros q' Hq'; apply IN; now right). destruct (IN q ltac:(now left)) as (A1 & A2 & A3). unfold idx. now rewrite H.
Qed.

Section D.
Variables (b b' : build) (h h' : sht R) (cl0 Rmin0 Rmax0 : R) (nx : nat) (g g' : grid R).
Hypothesis Hg : grid_of b h cl0 Rmin0 Rmax0 nx g.
Hypothesis Hg' : grid_of b' h' cl0 Rmin0 Rmax0 nx g'.
Hypothesis Hsh : shapes h.
Hypothesis Hsh' : shapes h'.
Hypothesis Hrl : relaid b b' h h'.
Hypothesis Hc : use_cheb b = use_cheb b'.
Local Notation same := (same_field b b' nx (s_nlat h) (s_nphi h)).
Lemma nth_same v v' ix it ip : same v v' -> ix < nx -> it < s_nlat h -> ip < s_nphi h ->
  nth (ix_R_th_ph b (s_nlat h) (s_nphi h) ix it ip) v 0%R = nth (ix_R_th_ph b' (s_nlat h) (s_nphi h) ix it ip) v' 0%R.
Proof.
  intros (L & L' & H) Hx Ht Hp. specialize (H ix it ip Hx Ht Hp).
  rewrite !ix_R_th_ph_eq. unfold ix_th_ph. fold (pos b (s_nlat h) (s_nphi h) it ip). fold (pos b' (s_nlat h) (s_nphi h) it ip).
  pose proof (pos_bound b (s_nlat h) (s_nphi h) it ip Ht Hp). pose proof (pos_bound b' (s_nlat h) (s_nphi h) it ip Ht Hp).
  assert (s_nlat h * s_nphi h * ix + s_nlat h * s_nphi h <= nx * s_nlat h * s_nphi h) by nia.
  rewrite (nth_error_nth' v 0%R), (nth_error_nth' v' 0%R) in H by lia. congruence.
Qed.
Theorem C95_exact_diagnostics s1 s2 t1 t2 dt f_n f_np1 p f_n' f_np1' p' :
  same f_n f_n' -> same f_np1 f_np1' -> same p p' -> 1 <= s_nlat h -> 1 <= s_nphi h ->
  deals s1 (g_n3 g) -> deals s2 (g_n3 g') -> deals t1 (nx - 1) -> deals t2 (nx - 1) ->
  norm_indep_res g s1 dt f_n f_np1 p = norm_indep_res g' s2 dt f_n' f_np1' p' /\
  total_variation g t1 f_np1 = total_variation g' t2 f_np1'.
Proof.
  intros H1 H2 H3 Hla Hph D1 D2 D3 D4.
  destruct (gof_sizes b h cl0 Rmin0 Rmax0 nx g Hg) as (Eb & En & _ & Et & Ep & _).
  destruct (gof_sizes b' h' cl0 Rmin0 Rmax0 nx g' Hg') as (Eb' & En' & _ & Et' & Ep' & _).
  rewrite (rl_nlat _ _ _ _ Hrl) in Et'. rewrite (rl_nphi _ _ _ _ Hrl) in Ep'.
  assert (N3 : g_n3 g = nx * s_nlat h * s_nphi h) by (unfold g_n3; congruence). assert (N3' : g_n3 g' = nx * s_nlat h * s_nphi h) by (unfold g_n3; congruence).
  pose proof H1 as (L1 & L1' & _). pose proof H2 as (L2 & L2' & _). pose proof H3 as (L3 & L3' & _). split.
  - rewrite (nir_closed g) by (rewrite ?N3 in *; auto). rewrite (nir_closed g') by (rewrite ?N3' in *; auto).
    f_equal. f_equal. rewrite N3, N3'. f_equal. unfold res_sum. apply (Rsum_relabel b b'). intros ix it ip A1 A2 A3.
    rewrite (nth_same p p'), (nth_same f_np1 f_np1'), (nth_same f_n f_n') by auto. reflexivity.
  - rewrite (tv_closed g) by (rewrite ?N3, ?En, ?Et, ?Ep; auto). rewrite (tv_closed g') by (rewrite ?N3', ?En', ?Et', ?Ep'; auto).
    f_equal. rewrite N3, N3'. f_equal. unfold tv_sum. rewrite En, En', Et, Et', Ep, Ep'.
    apply Rsum_ext; intros ix A1. apply Rsum_ext; intros it A2. apply Rsum_ext; intros ip A3.
    unfold tv_term, at3, indx_R_th_ph. rewrite Eb, Eb', Et, Et', Ep, Ep'. rewrite !(nth_same f_np1 f_np1') by (auto; lia). reflexivity.
Qed.
End D.
