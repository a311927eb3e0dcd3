(** Structural lemmas about the Sphere model, for any arithmetic: copies, coefficient loops. *)
From Coq Require Import FinFun.
From Verif Require Import Base BaseLemmas ForList Arith MSphere PGrid PMake.

(** ** copies *)
Lemma firstn_all_eq {A} n (l : list A) : length l = n -> firstn n l = l.
Proof. intros <-. apply firstn_all. Qed.
Lemma nth_error_firstn {A} n (l : list A) i : i < n -> nth_error (firstn n l) i = nth_error l i.
Proof. revert l i; induction n as [|n IH]; intros [|x l] [|i] H; simpl; auto; try lia. apply IH; lia. Qed.

Lemma copy_loop {A} n (src dst : list A) : length src = n -> length dst = n ->
  for_ 0 n (fun i d => let! x := vget src i in vset d i x) dst = Ok src.
Proof.
  intros Hs Hd. destruct n as [|n].
  { rewrite for_nil by auto. destruct src, dst; simpl in *; congruence || discriminate. }
  destruct src as [|z src']; [discriminate|]. set (src := z :: src') in *.
  rewrite (for_ext 0 (S n) _ (fun i d => vset d i (nth i src z))).
  2:{ intros k s Hk. rewrite (vget_ok src k z) by lia. reflexivity. }
  rewrite for_fill by auto. f_equal. apply (nth_ext _ _ z z).
  - now rewrite map_length, seq_length.
  - intros i Hi. rewrite map_length, seq_length in Hi. now rewrite nth_map_seq.
Qed.
Lemma copy_in_ok {A} (z : A) n src : length src = n -> copy_in z n src = Ok src.
Proof. intros H. apply copy_loop; auto. apply vec_length. Qed.
Lemma copy_out_ok {A} n (src dst : list A) : length src = n -> length dst = n -> copy_out n src dst = Ok src.
Proof. intros. now apply copy_loop. Qed.
Lemma copy_re_ok {F} {AF : Arith F} n (v : list F) : length v = n ->
  copy_re n v = Ok (map (fun x => (x, fofZ 0)) v).
Proof.
  intros H. unfold copy_re.
  rewrite (for_ext 0 n _ (fun i d => vset d i (nth i v f0, fofZ 0))).
  2:{ intros k s Hk. rewrite (vget_ok v k f0) by lia. reflexivity. }
  rewrite for_fill by apply vec_length. f_equal. apply (nth_ext _ _ c0 c0).
  - now rewrite !map_length, seq_length.
  - intros i Hi. rewrite map_length, seq_length in Hi. rewrite nth_map_seq by auto.
    pose proof (map_nth (fun x : F => (x, fofZ 0)) v f0 i) as E. cbn beta in E.
    rewrite <- E. apply nth_indep. rewrite map_length. lia.
Qed.

(** ** coefficient layout *)
Lemma tri_even m lmax : m <= 2 * lmax + 1 -> exists k, m * (2 * lmax + 2 - (m + 1)) = 2 * k.
Proof.
  intros H. destruct (Nat.Even_or_Odd m) as [[k ->]|[k ->]].
  - exists (k * (2 * lmax + 2 - (2 * k + 1))). lia.
  - exists ((2 * k + 1) * (lmax - k)). replace (2 * lmax + 2 - (2 * k + 1 + 1)) with (2 * (lmax - k)) by lia. lia.
Qed.
Lemma LM_double lmax l m : m <= 2 * lmax + 1 -> 2 * LM lmax l m = m * (2 * lmax + 2 - (m + 1)) + 2 * l.
Proof.
  intros H. unfold LM. destruct (tri_even m lmax H) as (k & E). rewrite E.
  replace (2 * k / 2) with k by (rewrite Nat.mul_comm, Nat.div_mul; lia). lia.
Qed.
Lemma nlm_double lmax mmax : mmax <= lmax -> 2 * nlm_calc lmax mmax = (mmax + 1) * (2 * lmax + 2 - mmax).
Proof.
  intros H. unfold nlm_calc.
  assert (E : exists k, mmax * (mmax + 1) = 2 * k).
  { destruct (Nat.Even_or_Odd mmax) as [[k ->]|[k ->]]; [exists (k * (2 * k + 1))|exists ((2 * k + 1) * (k + 1))]; lia. }
  destruct E as (k & E). rewrite E. replace (2 * k / 2) with k by (rewrite Nat.mul_comm, Nat.div_mul; lia).
  assert (exists e, lmax = mmax + e) as (e & ->) by (exists (lmax - mmax); lia).
  replace (2 * (mmax + e) + 2 - mmax) with (mmax + 2 * e + 2) by lia. lia.
Qed.
Lemma LM_lt lmax mmax l m : mmax <= lmax -> l <= lmax -> m <= l -> m <= mmax -> LM lmax l m < nlm_calc lmax mmax.
Proof.
  intros. pose proof (LM_double lmax l m ltac:(lia)). pose proof (nlm_double lmax mmax ltac:(auto)).
  assert (m * (2 * lmax + 2 - (m + 1)) + 2 * l < (mmax + 1) * (2 * lmax + 2 - mmax)); [|lia].
  assert (exists d, mmax = m + d) as (d & ->) by (exists (mmax - m); lia).
  assert (exists e, lmax = m + d + e) as (e & ->) by (exists (lmax - (m + d)); lia).
  replace (2 * (m + d + e) + 2 - (m + 1)) with (m + 2 * d + 2 * e + 1) by lia.
  replace (2 * (m + d + e) + 2 - (m + d)) with (m + d + 2 * e + 2) by lia.
  pose proof (Nat.le_0_l (d * d)). pose proof (Nat.le_0_l (d * e)). lia.
Qed.
Lemma LM_block lmax l m l' m' : m < m' -> m' <= l' -> l' <= lmax -> l <= lmax -> LM lmax l m < LM lmax l' m'.
Proof.
  intros. pose proof (LM_double lmax l m ltac:(lia)). pose proof (LM_double lmax l' m' ltac:(lia)).
  assert (m * (2 * lmax + 2 - (m + 1)) + 2 * l < m' * (2 * lmax + 2 - (m' + 1)) + 2 * l'); [|lia].
  assert (exists d, m' = m + 1 + d) as (d & ->) by (exists (m' - m - 1); lia).
  assert (exists e, lmax = m + 1 + d + e) as (e & ->) by (exists (lmax - (m + 1 + d)); lia).
  replace (2 * (m + 1 + d + e) + 2 - (m + 1)) with (m + 2 * d + 2 * e + 3) by lia.
  replace (2 * (m + 1 + d + e) + 2 - (m + 1 + d + 1)) with (m + d + 2 * e + 2) by lia.
  pose proof (Nat.le_0_l (d * d)). pose proof (Nat.le_0_l (d * e)). lia.
Qed.
Lemma LM_inj lmax l m l' m' : l <= lmax -> l' <= lmax -> m <= l -> m' <= l' ->
  LM lmax l m = LM lmax l' m' -> l = l' /\ m = m'.
Proof.
  intros. destruct (lt_eq_lt_dec m m') as [[Hlt|Heq]|Hlt].
  - pose proof (LM_block lmax l m l' m'). lia.
  - subst m'. split; auto. unfold LM in *. lia.
  - pose proof (LM_block lmax l' m' l m). lia.
Qed.
Lemma LM_surj lmax mmax k : mmax <= lmax -> k < nlm_calc lmax mmax ->
  exists l m, l <= lmax /\ m <= l /\ m <= mmax /\ LM lmax l m = k.
Proof.
  intros Hm. induction mmax as [|mm IH]; intros Hk.
  - pose proof (nlm_double lmax 0 Hm). exists k, 0. unfold LM. simpl. repeat split; lia.
  - pose proof (nlm_double lmax (S mm) Hm) as E1. pose proof (nlm_double lmax mm ltac:(lia)) as E2.
    destruct (lt_dec k (nlm_calc lmax mm)) as [Hlt|Hge].
    + destruct IH as (l & m & ? & ? & ? & ?); try lia. exists l, m. repeat split; auto.
    + exists (k - nlm_calc lmax mm + S mm), (S mm).
      pose proof (LM_double lmax (k - nlm_calc lmax mm + S mm) (S mm) ltac:(lia)) as E3.
      assert (exists e, lmax = S mm + e) as (e & ->) by (exists (lmax - S mm); lia).
      replace (2 * (S mm + e) + 2 - S mm) with (mm + 2 * e + 3) in E1 by lia.
      replace (2 * (S mm + e) + 2 - mm) with (mm + 2 * e + 4) in E2 by lia.
      replace (2 * (S mm + e) + 2 - (S mm + 1)) with (mm + 2 * e + 2) in E3 by lia.
      repeat split; lia.
Qed.

(** ** loops over a list of positions, each modifying its own cell *)
Lemma for_list_modify {A I} (is : list I) (pos : I -> nat) (h : I -> A -> A) (body : I -> list A -> res (list A)) (y : list A) :
  NoDup is -> (forall i j, In i is -> In j is -> pos i = pos j -> i = j) ->
  (forall i y' x, In i is -> length y' = length y -> nth_error y' (pos i) = Some x -> body i y' = Ok (upd y' (pos i) (h i x))) ->
  (forall i, In i is -> pos i < length y) ->
  exists y', for_list is body y = Ok y' /\ length y' = length y /\
    (forall i, In i is -> nth_error y' (pos i) = option_map (h i) (nth_error y (pos i))) /\
    (forall k, (forall i, In i is -> pos i <> k) -> nth_error y' k = nth_error y k).
Proof.
  intros Hnd Hinj Hb Hlt.
  destruct (for_list_total (fun pre y' => length y' = length y /\
    (forall i, In i pre -> nth_error y' (pos i) = option_map (h i) (nth_error y (pos i))) /\
    (forall k, (forall i, In i pre -> pos i <> k) -> nth_error y' k = nth_error y k)) is body y) as (y' & E & HP).
  - repeat split; auto. intros i [].
  - intros pre i post y1 Hd (L & H1 & H2).
    assert (Hi : In i is) by (rewrite Hd, in_app_iff; right; left; auto).
    assert (Hni : forall j, In j pre -> pos j <> pos i).
    { intros j Hj Ej. apply Hinj in Ej; auto; [|rewrite Hd, in_app_iff; auto]. subst j.
      now apply (nodup_split is pre post i Hnd Hd). }
    destruct (nth_error y1 (pos i)) as [x|] eqn:Ex.
    2:{ apply nth_error_None in Ex. specialize (Hlt i Hi). lia. }
    exists (upd y1 (pos i) (h i x)). split; [now apply Hb|]. split; [now rewrite upd_length|]. split.
    + intros j Hj. rewrite nth_error_upd by (specialize (Hlt i Hi); lia).
      destruct (Nat.eqb_spec (pos i) (pos j)) as [Ep|Hne].
      * assert (i = j). { apply Hinj; auto. rewrite in_app_iff in Hj. destruct Hj as [Hj|[<-|[]]]; auto. rewrite Hd, in_app_iff; auto. }
        subst j. rewrite H2 in Ex by auto. rewrite Ex. reflexivity.
      * rewrite in_app_iff in Hj. destruct Hj as [Hj|[<-|[]]]; [auto|congruence].
    + intros k Hk. rewrite nth_error_upd by (specialize (Hlt i Hi); lia).
      destruct (Nat.eqb_spec (pos i) k) as [Ep|Hne].
      * exfalso. apply (Hk i); auto. rewrite in_app_iff; right; left; auto.
      * apply H2. intros j Hj. apply Hk. rewrite in_app_iff; auto.
  - exists y'. split; auto.
Qed.

Definition dep_pairs (n : nat) (k : nat -> nat) : list (nat * nat) :=
  flat_map (fun l => map (pair l) (seq 0 (k l))) (seq 0 n).
Lemma In_dep_pairs n k p : In p (dep_pairs n k) <-> fst p < n /\ snd p < k (fst p).
Proof.
  unfold dep_pairs. rewrite in_flat_map. destruct p as [l m]. simpl. split.
  - intros (x & Hx & Hm). apply in_seq in Hx. apply in_map_iff in Hm. destruct Hm as (y & E & Hy). injection E as <- <-.
    apply in_seq in Hy. lia.
  - intros [Hl Hm]. exists l. split; [apply in_seq; lia|]. apply in_map_iff. exists m. split; auto. apply in_seq; lia.
Qed.
Lemma NoDup_dep_pairs n k : NoDup (dep_pairs n k).
Proof.
  unfold dep_pairs. generalize (seq_NoDup n 0). induction (seq 0 n) as [|l ls IH]; intros H; simpl; [constructor|].
  inversion H; subst.
  assert (G : forall l1 l2 : list (nat * nat), NoDup l1 -> NoDup l2 -> (forall x, In x l1 -> ~ In x l2) -> NoDup (l1 ++ l2)).
  { induction l1 as [|x l1 IH1]; intros l2 A B D; simpl; auto. inversion A; subst. constructor.
    - rewrite in_app_iff. intros [?|?]; [auto|]. apply (D x); simpl; auto.
    - apply IH1; auto. intros y Hy. apply D. simpl; auto. }
  apply G; auto.
  - apply FinFun.Injective_map_NoDup; [|apply seq_NoDup]. intros a b E. congruence.
  - intros [a b] H1 H4. apply in_map_iff in H1. destruct H1 as (y & E & _). injection E as -> ->.
    apply in_flat_map in H4. destruct H4 as (z & Hz & H4). apply in_map_iff in H4. destruct H4 as (w & E & _). congruence.
Qed.
Lemma for_dep_as_list {S} n k (body : nat -> nat -> S -> res S) s :
  for_ 0 n (fun l s => for_ 0 (k l) (body l) s) s = for_list (dep_pairs n k) (fun p => body (fst p) (snd p)) s.
Proof.
  rewrite for_as_list, Nat.sub_0_r. unfold dep_pairs. revert s.
  induction (seq 0 n) as [|l ls IH]; intros s; simpl; auto.
  rewrite for_list_app, for_list_map, for_as_list, Nat.sub_0_r. simpl.
  destruct (for_list (seq 0 (k l)) (body l) s); simpl; auto.
Qed.

Section LmLoop.
Context {F : Type} {AF : Arith F}.
Lemma lm_loop_ok (s : sphere F) (body : nat -> nat -> cplx F -> res (cplx F)) (h : nat -> nat -> cplx F -> cplx F) y :
  sp_mmax s <= sp_lmax s -> length y = nlm_calc (sp_lmax s) (sp_mmax s) ->
  (forall l m c, l < sp_lmax s -> m <= l -> m < sp_mmax s -> body l m c = Ok (h l m c)) ->
  exists y', lm_loop s body y = Ok y' /\ length y' = length y /\
    forall l m, l <= sp_lmax s -> m <= l -> m <= sp_mmax s ->
      nth (LM (sp_lmax s) l m) y' c0 =
        if (l <? sp_lmax s) && (m <? sp_mmax s) then h l m (nth (LM (sp_lmax s) l m) y c0) else nth (LM (sp_lmax s) l m) y c0.
Proof.
  intros Hm HL Hb. unfold lm_loop. rewrite for_dep_as_list.
  set (is := dep_pairs _ _).
  assert (Hin : forall p, In p is <-> fst p < sp_lmax s /\ snd p <= fst p /\ snd p < sp_mmax s).
  { intros p. unfold is. rewrite In_dep_pairs. lia. }
  destruct (for_list_modify is (fun p => LM (sp_lmax s) (fst p) (snd p)) (fun p => h (fst p) (snd p))
    (fun p y => bind (vget y (LM (sp_lmax s) (fst p) (snd p))) (fun c => bind (body (fst p) (snd p) c)
       (fun c' => vset y (LM (sp_lmax s) (fst p) (snd p)) c'))) y) as (y' & E & L & H1 & H2).
  - apply NoDup_dep_pairs.
  - intros [l m] [l' m'] Hi Hj Ep. apply Hin in Hi, Hj. simpl in *. apply LM_inj in Ep; try lia. destruct Ep; congruence.
  - intros p y1 x Hi HL1 Ex. apply Hin in Hi. rewrite (vget_some _ _ _ Ex). cbn [bind]. rewrite Hb by lia. cbn [bind].
    apply vset_ok. apply nth_error_some_lt in Ex. auto.
  - intros p Hi. apply Hin in Hi. rewrite HL. apply LM_lt; lia.
  - exists y'. split; [exact E|]. split; auto. intros l m Hl Hml Hmm.
    assert (Hlt : LM (sp_lmax s) l m < length y) by (rewrite HL; apply LM_lt; lia).
    destruct (Nat.ltb_spec l (sp_lmax s)), (Nat.ltb_spec m (sp_mmax s)); cbn [andb].
    + specialize (H1 (l, m)). cbn [fst snd] in H1. specialize (H1 (proj2 (Hin (l, m)) ltac:(simpl; lia))).
      rewrite (nth_error_nth' y c0 Hlt) in H1. cbn in H1. apply nth_error_nth with (d := c0) in H1. exact H1.
    + assert (E2 : nth_error y' (LM (sp_lmax s) l m) = nth_error y (LM (sp_lmax s) l m)).
      { apply H2. intros [l' m'] Hi Ep. apply Hin in Hi. simpl in *. apply LM_inj in Ep; lia. }
      rewrite (nth_error_nth' y c0 Hlt) in E2. now apply nth_error_nth with (d := c0) in E2.
    + assert (E2 : nth_error y' (LM (sp_lmax s) l m) = nth_error y (LM (sp_lmax s) l m)).
      { apply H2. intros [l' m'] Hi Ep. apply Hin in Hi. simpl in *. apply LM_inj in Ep; lia. }
      rewrite (nth_error_nth' y c0 Hlt) in E2. now apply nth_error_nth with (d := c0) in E2.
    + assert (E2 : nth_error y' (LM (sp_lmax s) l m) = nth_error y (LM (sp_lmax s) l m)).
      { apply H2. intros [l' m'] Hi Ep. apply Hin in Hi. simpl in *. apply LM_inj in Ep; lia. }
      rewrite (nth_error_nth' y c0 Hlt) in E2. now apply nth_error_nth with (d := c0) in E2.
Qed.
End LmLoop.
