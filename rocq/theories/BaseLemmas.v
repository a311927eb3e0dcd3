(** Lemmas about the vocabulary of [Base]: vectors, writes and loops. *)
From Verif Require Import Base.

Lemma wsub_le a b : b <= a -> wsub a b = a - b.
Proof. intros H. unfold wsub. destruct (Nat.leb_spec b a); lia. Qed.
Lemma wsub_lt a b : a < b -> Z.of_nat (wsub a b) = Z.max 0 (2 ^ 64 + Z.of_nat a - Z.of_nat b).
Proof. intros H. unfold wsub. destruct (Nat.leb_spec b a); [lia|]. lia. Qed.
(** an underflowing subtraction of a small number is huge *)
Lemma wsub_big a b k : a < b -> b <= 16 -> (Z.of_nat k <= 2 ^ 63)%Z -> k < wsub a b.
Proof. intros H Hb Hk. apply Nat2Z.inj_lt. rewrite wsub_lt by auto. lia. Qed.

(** ** upd / vget / vset *)
Section Vec.
  Context {A : Type}.
  Implicit Types (v : list A).

  Lemma upd_length v i x : length (upd v i x) = length v.
  Proof. revert i; induction v as [|y v IH]; intros [|i]; simpl; auto. Qed.

  Lemma nth_error_upd_eq v i x : i < length v -> nth_error (upd v i x) i = Some x.
  Proof. revert i; induction v as [|y v IH]; intros [|i] H; simpl in *; try lia; auto.
         apply IH; lia. Qed.

  Lemma nth_error_upd_neq v i j x : i <> j -> nth_error (upd v i x) j = nth_error v j.
  Proof. revert i j; induction v as [|y v IH]; intros [|i] [|j] H; simpl; auto; try lia. Qed.

  Lemma nth_error_upd v i j x : i < length v ->
    nth_error (upd v i x) j = if i =? j then Some x else nth_error v j.
  Proof. intros H. destruct (Nat.eqb_spec i j) as [->|Hne].
         - now apply nth_error_upd_eq. - now apply nth_error_upd_neq. Qed.

  Lemma vset_ok v i x : i < length v -> vset v i x = Ok (upd v i x).
  Proof. intros H. unfold vset. destruct (Nat.ltb_spec i (length v)); [reflexivity|lia]. Qed.
  Lemma vset_ub v i x : length v <= i -> vset v i x = UB.
  Proof. intros H. unfold vset. destruct (Nat.ltb_spec i (length v)); [lia|reflexivity]. Qed.

  Lemma vget_ok v i d : i < length v -> vget v i = Ok (nth i v d).
  Proof. intros H. unfold vget. now rewrite (nth_error_nth' v d H). Qed.
  Lemma vget_ub v i : length v <= i -> vget v i = UB.
  Proof. intros H. unfold vget. apply nth_error_None in H. now rewrite H. Qed.
  Lemma vget_some v i x : nth_error v i = Some x -> vget v i = Ok x.
  Proof. intros H. unfold vget. now rewrite H. Qed.

  Lemma nth_error_some_lt v i x : nth_error v i = Some x -> i < length v.
  Proof. intros H. apply nth_error_Some. now rewrite H. Qed.

  Lemma nth_upd_eq v i x d : i < length v -> nth i (upd v i x) d = x.
  Proof. intros H. apply nth_error_nth. now apply nth_error_upd_eq. Qed.
  Lemma nth_upd_neq v i j x d : i <> j -> nth j (upd v i x) d = nth j v d.
  Proof. intros H. rewrite !nth_default_eq || idtac.
    revert i j H; induction v as [|y v IH]; intros [|i] [|j] H; simpl; auto; try lia. Qed.

  Lemma nth_error_ext v w : (forall i, nth_error v i = nth_error w i) -> v = w.
  Proof.
    revert w; induction v as [|x v IH]; intros [|y w] H; auto.
    - specialize (H 0); discriminate.
    - specialize (H 0); discriminate.
    - f_equal. + specialize (H 0); simpl in H; congruence.
      + apply IH. intros i. exact (H (S i)).
  Qed.

  Lemma vec_ext v w d : length v = length w ->
    (forall i, i < length v -> nth i v d = nth i w d) -> v = w.
  Proof. intros HL H. apply (nth_ext v w d d HL H). Qed.

  Lemma vec_length n (x : A) : length (vec n x) = n.
  Proof. apply repeat_length. Qed.
  Lemma nth_vec n (x : A) i d : i < n -> nth i (vec n x) d = x.
  Proof. intros H. unfold vec. rewrite (nth_indep _ d x) by (rewrite repeat_length; lia).
         apply nth_repeat. Qed.
  Lemma nth_error_vec n (x : A) i : i < n -> nth_error (vec n x) i = Some x.
  Proof. intros H. unfold vec. now apply nth_error_repeat. Qed.

  (** ** Batches of writes *)
  Fixpoint wr (ws : list (nat * A)) (v : list A) : list A :=
    match ws with [] => v | (i, x) :: ws' => wr ws' (upd v i x) end.

  Lemma wr_length ws v : length (wr ws v) = length v.
  Proof. revert v; induction ws as [|[i x] ws IH]; intros v; simpl; auto.
         rewrite IH. apply upd_length. Qed.

  Lemma wr_app ws1 ws2 v : wr (ws1 ++ ws2) v = wr ws2 (wr ws1 v).
  Proof. revert v; induction ws1 as [|[i x] ws IH]; intros v; simpl; auto. Qed.

  Lemma wr_notin ws v j : ~ In j (map fst ws) -> nth_error (wr ws v) j = nth_error v j.
  Proof.
    revert v; induction ws as [|[i x] ws IH]; intros v H; simpl in *; auto.
    rewrite IH by tauto. apply nth_error_upd_neq. tauto.
  Qed.

  Lemma wr_in ws v j x :
    (forall y, In (j, y) ws -> y = x) -> In j (map fst ws) -> j < length v ->
    nth_error (wr ws v) j = Some x.
  Proof.
    revert v; induction ws as [|[i y] ws IH]; intros v Hc Hin Hl; simpl in *; [tauto|].
    destruct (in_dec Nat.eq_dec j (map fst ws)) as [Hin'|Hnin].
    - apply IH; auto. rewrite upd_length; auto.
    - rewrite wr_notin by auto. destruct Hin as [->|]; [|tauto].
      rewrite nth_error_upd_eq by auto. f_equal. apply Hc. now left.
  Qed.
End Vec.

(** ** Loops *)
Section Loops.
  Context {S : Type}.
  Implicit Types (body : nat -> S -> res S).

  Lemma for_nil lo hi body s : hi <= lo -> for_ lo hi body s = Ok s.
  Proof. intros H. unfold for_. replace (hi - lo) with 0 by lia. reflexivity. Qed.

  Lemma for_step lo hi body s : lo < hi ->
    for_ lo hi body s = bind (body lo s) (for_ (Datatypes.S lo) hi body).
  Proof. intros H. unfold for_. replace (hi - lo) with (Datatypes.S (hi - Datatypes.S lo)) by lia.
         reflexivity. Qed.

  Lemma for_ub lo hi body s : lo < hi -> body lo s = UB -> for_ lo hi body s = UB.
  Proof. intros H Hb. rewrite for_step, Hb by auto. reflexivity. Qed.

  Lemma loop_ext n i body body' s :
    (forall k s, i <= k < i + n -> body k s = body' k s) -> loop n i body s = loop n i body' s.
  Proof.
    revert i s; induction n as [|n IH]; intros i s H; simpl; auto.
    rewrite H by lia. destruct (body' i s); simpl; auto. apply IH. intros; apply H; lia.
  Qed.
  Lemma for_ext lo hi body body' s :
    (forall k s, lo <= k < hi -> body k s = body' k s) -> for_ lo hi body s = for_ lo hi body' s.
  Proof. intros H. unfold for_. apply loop_ext. intros; apply H; lia. Qed.

  Lemma for_inv (P : nat -> S -> Prop) lo hi body s :
    lo <= hi -> P lo s ->
    (forall i s, lo <= i < hi -> P i s -> exists s', body i s = Ok s' /\ P (Datatypes.S i) s') ->
    exists s', for_ lo hi body s = Ok s' /\ P hi s'.
  Proof.
    intros Hle H0 Hs. unfold for_.
    remember (hi - lo) as n eqn:Hn. revert lo s Hle H0 Hs Hn.
    induction n as [|n IH]; intros lo s Hle H0 Hs Hn; simpl.
    - exists s. split; auto. replace hi with lo by lia. auto.
    - destruct (Hs lo s) as (s1 & E1 & H1); [lia|auto|]. rewrite E1. simpl.
      apply IH; auto; try lia. intros; apply Hs; auto; lia.
  Qed.

  Lemma for_split lo mid hi body s : lo <= mid <= hi ->
    for_ lo hi body s = bind (for_ lo mid body s) (for_ mid hi body).
  Proof.
    intros H. unfold for_. remember (mid - lo) as n eqn:Hn. revert lo s H Hn.
    induction n as [|n IH]; intros lo s H Hn.
    - replace mid with lo by lia. reflexivity.
    - replace (hi - lo) with (Datatypes.S (hi - Datatypes.S lo)) by lia. simpl.
      destruct (body lo s); simpl; auto. apply IH; lia.
  Qed.

  Lemma for_last lo hi body s : lo <= hi ->
    for_ lo (Datatypes.S hi) body s = bind (for_ lo hi body s) (body hi).
  Proof. intros H. rewrite (for_split lo hi) by lia. destruct (for_ lo hi body s); simpl; auto.
         rewrite for_step by lia. destruct (body hi a); simpl; auto. now rewrite for_nil by lia. Qed.
End Loops.

Section WriteLoops.
  Context {A : Type}.

  (** A loop whose iterations each perform a batch of writes. *)
  Lemma for_wr (N lo hi : nat) (body : nat -> list A -> res (list A)) (ws : nat -> list (nat * A)) out :
    length out = N ->
    (forall i o, lo <= i < hi -> length o = N -> body i o = Ok (wr (ws i) o)) ->
    for_ lo hi body out = Ok (wr (flat_map ws (seq lo (hi - lo))) out).
  Proof.
    intros HL H. unfold for_. remember (hi - lo) as n eqn:Hn. revert lo out HL H Hn.
    induction n as [|n IH]; intros lo out HL H Hn; simpl; auto.
    rewrite H by (auto; lia). simpl. rewrite wr_app. apply IH.
    - now rewrite wr_length. - intros; apply H; auto; lia. - lia.
  Qed.

  (** A loop that modifies cell [i] as a function of its own old content. *)
  Lemma for_modify (N lo hi : nat) (body : nat -> list A -> res (list A)) (h : nat -> A -> A) out :
    length out = N -> hi <= N ->
    (forall i o x, lo <= i < hi -> length o = N -> nth_error o i = Some x ->
       body i o = Ok (upd o i (h i x))) ->
    exists out', for_ lo hi body out = Ok out' /\ length out' = N /\
      forall j, nth_error out' j =
        if (lo <=? j) && (j <? hi) then option_map (h j) (nth_error out j) else nth_error out j.
  Proof.
    intros HL HN H. destruct (le_lt_dec hi lo) as [Hle|Hlt].
    { exists out. rewrite for_nil by auto. repeat split; auto. intros j.
      destruct (Nat.leb_spec lo j), (Nat.ltb_spec j hi); simpl; auto; lia. }
    destruct (for_inv (fun k o => length o = N /\ forall j, nth_error o j =
        if (lo <=? j) && (j <? k) then option_map (h j) (nth_error out j) else nth_error out j)
        lo hi body out) as (o & E & Ho & Hj).
    - lia.
    - split; auto. intros j. destruct (Nat.leb_spec lo j), (Nat.ltb_spec j lo); simpl; auto; lia.
    - intros i o Hi [Ho Hj].
      destruct (nth_error out i) as [x|] eqn:Ex.
      2:{ apply nth_error_None in Ex. lia. }
      assert (Eo : nth_error o i = Some x).
      { rewrite Hj, Ex. destruct (Nat.ltb_spec i i); [lia|]. now rewrite andb_false_r. }
      rewrite (H i o x) by auto. eexists; split; [reflexivity|]. split; [now rewrite upd_length|].
      intros j. rewrite nth_error_upd by lia.
      destruct (Nat.eqb_spec i j) as [<-|Hne].
      + rewrite Ex. destruct (Nat.leb_spec lo i), (Nat.ltb_spec i (S i)); simpl; auto; lia.
      + rewrite Hj. destruct (Nat.leb_spec lo j), (Nat.ltb_spec j i), (Nat.ltb_spec j (S i)); simpl; auto; lia.
    - exists o. auto.
  Qed.
End WriteLoops.

(** Reading a vector of known length through [nth]: tactic support. *)
Lemma bind_ok {A B} (a : A) (k : A -> res B) : bind (Ok a) k = k a.
Proof. reflexivity. Qed.
Lemma assert_true b c : c = true -> assert_ b c = Ok tt.
Proof. intros ->. unfold assert_. now destruct (ndebug b). Qed.
Lemma assert_ndebug b c : ndebug b = true -> assert_ b c = Ok tt.
Proof. intros H. unfold assert_. now rewrite H. Qed.
Lemma assert_fail b : ndebug b = false -> assert_ b false = Abort.
Proof. intros H. unfold assert_. now rewrite H. Qed.
