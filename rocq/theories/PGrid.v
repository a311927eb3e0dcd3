(** Lemmas about the grid's index maps and row loops. *)
From Verif Require Import Base BaseLemmas Arith MFd MCheb MSphere MGrid.

(** ** index arithmetic *)
Lemma mul_add_inj n a b c d : b < n -> d < n -> n * a + b = n * c + d -> a = c /\ b = d.
Proof.
  intros Hb Hd H.
  assert (a = c).
  { rewrite (Nat.mul_comm n a), (Nat.mul_comm n c) in H.
    assert (Ha : (a * n + b) / n = a) by (rewrite Nat.div_add_l by lia; rewrite Nat.div_small; lia).
    assert (Hc : (c * n + d) / n = c) by (rewrite Nat.div_add_l by lia; rewrite Nat.div_small; lia).
    rewrite H in Ha. congruence. }
  subst. lia.
Qed.
Lemma mul_add_lt n m a b : b < n -> a < m -> n * a + b < n * m.
Proof. intros. nia. Qed.
Lemma mul_add_surj n m k : k < n * m -> exists a b, a < m /\ b < n /\ k = n * a + b.
Proof.
  intros H. exists (k / n), (k mod n).
  assert (n <> 0) by (intros ->; simpl in H; lia).
  split; [apply Nat.div_lt_upper_bound; lia|]. split; [apply Nat.mod_upper_bound; lia|].
  apply Nat.div_mod; lia.
Qed.

Lemma ix_th_ph_lt b nlat nphi it ip : it < nlat -> ip < nphi -> ix_th_ph b nlat nphi it ip < nlat * nphi.
Proof. unfold ix_th_ph; destruct (contiguous b); nia. Qed.
Lemma ix_th_ph_inj b nlat nphi it ip it' ip' : it < nlat -> ip < nphi -> it' < nlat -> ip' < nphi ->
  ix_th_ph b nlat nphi it ip = ix_th_ph b nlat nphi it' ip' -> it = it' /\ ip = ip'.
Proof. unfold ix_th_ph; intros; destruct (contiguous b);
  match goal with H : _ = _ |- _ => apply mul_add_inj in H; [tauto|lia|lia] end. Qed.
Lemma ix_th_ph_surj b nlat nphi k : k < nlat * nphi ->
  exists it ip, it < nlat /\ ip < nphi /\ ix_th_ph b nlat nphi it ip = k.
Proof.
  intros H. unfold ix_th_ph. destruct (contiguous b).
  - destruct (mul_add_surj nlat nphi k H) as (a & c & Ha & Hc & ->). exists c, a. auto.
  - rewrite Nat.mul_comm in H. destruct (mul_add_surj nphi nlat k H) as (a & c & Ha & Hc & ->). exists a, c. auto.
Qed.
Lemma ix_R_th_ph_eq b nlat nphi ix it ip :
  ix_R_th_ph b nlat nphi ix it ip = nlat * nphi * ix + ix_th_ph b nlat nphi it ip.
Proof. unfold ix_R_th_ph, ix_th_ph; destruct (contiguous b); lia. Qed.

Lemma ix_R_th_ph_lt b nx nlat nphi ix it ip : ix < nx -> it < nlat -> ip < nphi ->
  ix_R_th_ph b nlat nphi ix it ip < nx * nlat * nphi.
Proof.
  intros. rewrite ix_R_th_ph_eq. pose proof (ix_th_ph_lt b nlat nphi it ip ltac:(auto) ltac:(auto)).
  replace (nx * nlat * nphi) with ((nlat * nphi) * nx) by lia. apply mul_add_lt; auto.
Qed.
Lemma ix_R_th_ph_inj b nlat nphi ix it ip ix' it' ip' :
  it < nlat -> ip < nphi -> it' < nlat -> ip' < nphi ->
  ix_R_th_ph b nlat nphi ix it ip = ix_R_th_ph b nlat nphi ix' it' ip' -> ix = ix' /\ it = it' /\ ip = ip'.
Proof.
  intros ? ? ? ? E. rewrite !ix_R_th_ph_eq in E.
  apply mul_add_inj in E; try (apply ix_th_ph_lt; auto). destruct E as [-> E].
  apply ix_th_ph_inj in E; auto.
Qed.
Lemma ix_R_th_ph_surj b nx nlat nphi k : k < nx * nlat * nphi ->
  exists ix it ip, ix < nx /\ it < nlat /\ ip < nphi /\ ix_R_th_ph b nlat nphi ix it ip = k.
Proof.
  intros H. replace (nx * nlat * nphi) with ((nlat * nphi) * nx) in H by lia.
  destruct (mul_add_surj _ _ _ H) as (a & c & Ha & Hc & ->).
  destruct (ix_th_ph_surj b nlat nphi c Hc) as (it & ip & ? & ? & <-).
  exists a, it, ip. rewrite ix_R_th_ph_eq. auto.
Qed.

(** ** batches of writes indexed by a list *)
Section WrMap.
  Context {A I : Type}.
  Lemma wr_map_in (is : list I) (dst : I -> nat) (val : I -> A) v i :
    (forall a b, In a is -> In b is -> dst a = dst b -> val a = val b) ->
    In i is -> dst i < length v ->
    nth_error (wr (map (fun i => (dst i, val i)) is) v) (dst i) = Some (val i).
  Proof.
    intros Hinj Hi Hlt. apply wr_in; auto.
    - intros y Hy. apply in_map_iff in Hy. destruct Hy as (k & E & Hk). inversion E; subst.
      apply Hinj; auto.
    - rewrite map_map. simpl. now apply (in_map dst).
  Qed.
  Lemma wr_map_notin (is : list I) (dst : I -> nat) (val : I -> A) v j :
    (forall i, In i is -> dst i <> j) ->
    nth_error (wr (map (fun i => (dst i, val i)) is) v) j = nth_error v j.
  Proof.
    intros H. apply wr_notin. rewrite map_map. simpl. intros Hin. apply in_map_iff in Hin.
    destruct Hin as (i & E & Hi). now apply (H i).
  Qed.
End WrMap.

Lemma flat_map_single {A B} (f : A -> B) l : flat_map (fun x => [f x]) l = map f l.
Proof. induction l; simpl; congruence. Qed.
Lemma flat_map_prod {A B C} (f : A -> B -> C) la lb :
  flat_map (fun a => map (f a) lb) la = map (fun p => f (fst p) (snd p)) (list_prod la lb).
Proof.
  induction la as [|a la IH]; simpl; auto. rewrite map_app, IH. f_equal. rewrite map_map. reflexivity.
Qed.

Section Gather.
  Context {F : Type} {AF : Arith F}.

  Lemma gather_wr n (dst src : nat -> nat) (inp out : list F) :
    (forall i, i < n -> src i < length inp) -> (forall i, i < n -> dst i < length out) ->
    gather n dst src inp out =
      Ok (wr (map (fun i => (dst i, nth (src i) inp f0)) (seq 0 n)) out).
  Proof.
    intros Hs Hd. unfold gather.
    rewrite (for_wr (length out) 0 n _ (fun i => [(dst i, nth (src i) inp f0)])); auto.
    - now rewrite Nat.sub_0_r, flat_map_single.
    - intros i o Hi Ho. rewrite (vget_ok _ _ f0) by (apply Hs; lia). simpl.
      rewrite vset_ok; auto. rewrite Ho. apply Hd. lia.
  Qed.

  Lemma gather2_wr n m (dst src : nat -> nat -> nat) (inp out : list F) :
    (forall i j, i < n -> j < m -> src i j < length inp) ->
    (forall i j, i < n -> j < m -> dst i j < length out) ->
    gather2 n m dst src inp out =
      Ok (wr (map (fun p => (dst (fst p) (snd p), nth (src (fst p) (snd p)) inp f0))
                  (list_prod (seq 0 n) (seq 0 m))) out).
  Proof.
    intros Hs Hd. unfold gather2.
    rewrite (for_wr (length out) 0 n _ (fun i => map (fun j => (dst i j, nth (src i j) inp f0)) (seq 0 m))); auto.
    - rewrite Nat.sub_0_r. f_equal. f_equal.
      apply (flat_map_prod (fun i j => (dst i j, nth (src i j) inp f0))).
    - intros i o Hi Ho.
      rewrite (for_wr (length o) 0 m _ (fun j => [(dst i j, nth (src i j) inp f0)])); auto.
      + now rewrite Nat.sub_0_r, flat_map_single.
      + intros j o' Hj Ho'. rewrite (vget_ok _ _ f0) by (apply Hs; lia). simpl.
        rewrite vset_ok; auto. rewrite Ho', Ho. apply Hd; lia.
  Qed.

  Lemma gather_spec n (dst src : nat -> nat) (inp out : list F) :
    (forall i, i < n -> src i < length inp) -> (forall i, i < n -> dst i < length out) ->
    (forall i j, i < n -> j < n -> dst i = dst j -> i = j) ->
    exists out', gather n dst src inp out = Ok out' /\ length out' = length out /\
      (forall i, i < n -> nth_error out' (dst i) = nth_error inp (src i)) /\
      (forall j, (forall i, i < n -> dst i <> j) -> nth_error out' j = nth_error out j).
  Proof.
    intros Hs Hd Hinj. rewrite gather_wr by auto. eexists; split; [reflexivity|].
    split; [apply wr_length|]. split.
    - intros i Hi. rewrite (wr_map_in _ dst (fun i => nth (src i) inp f0)); auto.
      + symmetry. apply nth_error_nth'. auto.
      + intros a b Ha Hb E. apply in_seq in Ha, Hb. now rewrite (Hinj a b) by (auto; lia).
      + apply in_seq; lia.
    - intros j Hj. apply (wr_map_notin _ dst (fun i => nth (src i) inp f0)).
      intros i Hi. apply in_seq in Hi. apply Hj; lia.
  Qed.

  Lemma gather2_spec n m (dst src : nat -> nat -> nat) (inp out : list F) :
    (forall i j, i < n -> j < m -> src i j < length inp) ->
    (forall i j, i < n -> j < m -> dst i j < length out) ->
    (forall i j i' j', i < n -> j < m -> i' < n -> j' < m -> dst i j = dst i' j' -> i = i' /\ j = j') ->
    exists out', gather2 n m dst src inp out = Ok out' /\ length out' = length out /\
      (forall i j, i < n -> j < m -> nth_error out' (dst i j) = nth_error inp (src i j)) /\
      (forall k, (forall i j, i < n -> j < m -> dst i j <> k) -> nth_error out' k = nth_error out k).
  Proof.
    intros Hs Hd Hinj. rewrite gather2_wr by auto. eexists; split; [reflexivity|].
    split; [apply wr_length|]. split.
    - intros i j Hi Hj.
      rewrite (wr_map_in _ (fun p => dst (fst p) (snd p)) (fun p => nth (src (fst p) (snd p)) inp f0) _ (i, j));
        simpl; auto.
      + symmetry. apply nth_error_nth'. auto.
      + intros [a a'] [b b'] Ha Hb E. apply in_prod_iff in Ha, Hb. rewrite !in_seq in *. simpl in *.
        destruct (Hinj a a' b b') as [-> ->]; auto; lia.
      + apply in_prod_iff. rewrite !in_seq. lia.
    - intros k Hk. apply (wr_map_notin _ (fun p => dst (fst p) (snd p)) (fun p => nth (src (fst p) (snd p)) inp f0)).
      intros [i j] Hi. apply in_prod_iff in Hi. rewrite !in_seq in Hi. simpl. apply Hk; lia.
  Qed.

  (** out-of-range source *)
  Lemma gather_ub n (dst src : nat -> nat) (inp out : list F) k :
    k < n -> (forall i, i < k -> src i < length inp) -> (forall i, i < k -> dst i < length out) ->
    length inp <= src k \/ length out <= dst k -> gather n dst src inp out = UB.
  Proof.
    intros Hk Hs Hd Hu. unfold gather. rewrite (for_split 0 k) by lia.
    fold (gather k dst src inp out). rewrite gather_wr by auto. simpl.
    rewrite for_step by lia.
    assert (E : forall o, length o = length out ->
      bind (vget inp (src k)) (fun x : F => vset o (dst k) x) = UB).
    { intros o Ho. destruct Hu as [Hu|Hu].
      - now rewrite vget_ub by auto.
      - unfold vget. destruct (nth_error inp (src k)); simpl; auto. apply vset_ub. lia. }
    rewrite E; [reflexivity|]. apply wr_length.
  Qed.
End Gather.

Section SetGet.
  Context {F : Type} {AF : Arith F}.
  Lemma get_spec n (pos : nat -> nat) (v out : list F) :
    length out = n -> (forall i, i < n -> pos i < length v) ->
    exists r, gather n (fun i => i) pos v out = Ok r /\ length r = n /\
      forall i, i < n -> nth_error r i = nth_error v (pos i).
  Proof.
    intros HL Hp. destruct (gather_spec n (fun i => i) pos v out) as (r & E & L & H1 & _); auto.
    { intros; lia. } exists r. repeat split; auto. lia.
  Qed.
  Lemma set_get n (pos : nat -> nat) (row v : list F) :
    length row = n -> (forall i, i < n -> pos i < length v) ->
    (forall i j, i < n -> j < n -> pos i = pos j -> i = j) ->
    exists v', gather n pos (fun i => i) row v = Ok v' /\ length v' = length v /\
      (forall i, i < n -> nth_error v' (pos i) = nth_error row i) /\
      (forall j, (forall i, i < n -> pos i <> j) -> nth_error v' j = nth_error v j) /\
      (forall out, length out = n -> gather n (fun i => i) pos v' out = Ok row).
  Proof.
    intros HL Hp Hinj. destruct (gather_spec n pos (fun i => i) row v) as (v' & E & L & H1 & H2); auto.
    { intros; lia. }
    exists v'. repeat split; auto. intros out Ho.
    destruct (get_spec n pos v' out) as (r & E' & L' & H'); auto.
    { intros i Hi. rewrite L. auto. }
    rewrite E'. f_equal. apply nth_error_ext. intros i.
    destruct (lt_dec i n) as [Hi|Hi].
    - rewrite H', H1; auto.
    - rewrite !(proj2 (nth_error_None _ _)); auto; lia.
  Qed.

  Lemma get2_spec n m (loc pos : nat -> nat -> nat) (v out : list F) :
    length out = n * m ->
    (forall i j, i < n -> j < m -> loc i j < n * m) ->
    (forall i j i' j', i < n -> j < m -> i' < n -> j' < m -> loc i j = loc i' j' -> i = i' /\ j = j') ->
    (forall i j, i < n -> j < m -> pos i j < length v) ->
    exists r, gather2 n m loc pos v out = Ok r /\ length r = n * m /\
      forall i j, i < n -> j < m -> nth_error r (loc i j) = nth_error v (pos i j).
  Proof.
    intros HL Hl Hi Hp. destruct (gather2_spec n m loc pos v out) as (r & E & L & H1 & _); auto.
    { intros. rewrite HL. auto. } exists r. repeat split; auto. lia.
  Qed.
  Lemma set_get2 n m (loc pos : nat -> nat -> nat) (row v : list F) :
    length row = n * m ->
    (forall i j, i < n -> j < m -> loc i j < n * m) ->
    (forall i j i' j', i < n -> j < m -> i' < n -> j' < m -> loc i j = loc i' j' -> i = i' /\ j = j') ->
    (forall k, k < n * m -> exists i j, i < n /\ j < m /\ loc i j = k) ->
    (forall i j, i < n -> j < m -> pos i j < length v) ->
    (forall i j i' j', i < n -> j < m -> i' < n -> j' < m -> pos i j = pos i' j' -> i = i' /\ j = j') ->
    exists v', gather2 n m pos loc row v = Ok v' /\ length v' = length v /\
      (forall i j, i < n -> j < m -> nth_error v' (pos i j) = nth_error row (loc i j)) /\
      (forall k, (forall i j, i < n -> j < m -> pos i j <> k) -> nth_error v' k = nth_error v k) /\
      (forall out, length out = n * m -> gather2 n m loc pos v' out = Ok row).
  Proof.
    intros HL Hl Hli Hls Hp Hpi.
    destruct (gather2_spec n m pos loc row v) as (v' & E & L & H1 & H2); auto.
    { intros. rewrite HL. auto. }
    exists v'. repeat split; auto. intros out Ho.
    destruct (get2_spec n m loc pos v' out) as (r & E' & L' & H'); auto.
    { intros. rewrite L. auto. }
    rewrite E'. f_equal. apply nth_error_ext. intros k.
    destruct (lt_dec k (n * m)) as [Hk|Hk].
    - destruct (Hls k Hk) as (i & j & Hi & Hj & <-). rewrite H', H1; auto.
    - rewrite !(proj2 (nth_error_None _ _)); auto; lia.
  Qed.
End SetGet.

Ltac ok_asserts :=
  repeat match goal with
  | |- context [bind (assert_ ?b (Nat.eqb ?x ?y)) _] =>
      rewrite (assert_true b (Nat.eqb x y)) by (apply Nat.eqb_eq; first [assumption | lia | congruence]); cbn [bind]
  end.
