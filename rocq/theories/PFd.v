(** Value-level description of FD::der, FD::der2 and FD::filter, and when they complete. *)
From Verif Require Import Base Arith BaseLemmas ForList PGrid PMake MFd.
Local Open Scope nat_scope.

Section PFd.
Context {F : Type} {AF : Arith F}.
Implicit Types (v dv : list F).

Definition der_val (n : nat) (dx : F) (w : nat -> F) (i : nat) : F :=
  if i =? 0 then fdiv (der_s0 (w 0) (w 1) (w 2) (w 3) (w 4) (w 5) (w 6)) dx
  else if i =? 1 then fdiv (der_s1 (w 0) (w 1) (w 2) (w 3) (w 4) (w 5) (w 6)) dx
  else if i =? 2 then fdiv (der_s2 (w 0) (w 1) (w 2) (w 3) (w 4) (w 5) (w 6)) dx
  else if i =? n - 1 then fdiv (fopp (der_s0 (w (n-1)) (w (n-1-1)) (w (n-1-2)) (w (n-1-3)) (w (n-1-4)) (w (n-1-5)) (w (n-1-6)))) dx
  else if i =? n - 2 then fdiv (fopp (der_s1 (w (n-1)) (w (n-1-1)) (w (n-1-2)) (w (n-1-3)) (w (n-1-4)) (w (n-1-5)) (w (n-1-6)))) dx
  else if i =? n - 3 then fdiv (fopp (der_s2 (w (n-1)) (w (n-1-1)) (w (n-1-2)) (w (n-1-3)) (w (n-1-4)) (w (n-1-5)) (w (n-1-6)))) dx
  else fdiv (der_s (w (i-3)) (w (i-2)) (w (i-1)) (w (i+1)) (w (i+2)) (w (i+3))) dx.

Definition der2_val (n : nat) (dx2 : F) (w : nat -> F) (i : nat) : F :=
  if i =? 0 then fdiv (der2_s0 (w 0) (w 1) (w 2) (w 3) (w 4) (w 5) (w 6) (w 7)) dx2
  else if i =? 1 then fdiv (der2_s1 (w 0) (w 1) (w 2) (w 3) (w 4) (w 5) (w 6) (w 7)) dx2
  else if i =? 2 then fdiv (der2_s2 (w 0) (w 1) (w 2) (w 3) (w 4) (w 5) (w 6) (w 7)) dx2
  else if i =? n - 1 then fdiv (der2_s0 (w (n-1)) (w (n-1-1)) (w (n-1-2)) (w (n-1-3)) (w (n-1-4)) (w (n-1-5)) (w (n-1-6)) (w (n-1-7))) dx2
  else if i =? n - 1 - 1 then fdiv (der2_s1 (w (n-1)) (w (n-1-1)) (w (n-1-2)) (w (n-1-3)) (w (n-1-4)) (w (n-1-5)) (w (n-1-6)) (w (n-1-7))) dx2
  else if i =? n - 1 - 2 then fdiv (der2_s2 (w (n-1)) (w (n-1-1)) (w (n-1-2)) (w (n-1-3)) (w (n-1-4)) (w (n-1-5)) (w (n-1-6)) (w (n-1-7))) dx2
  else fdiv (der2_s (w (i-3)) (w (i-2)) (w (i-1)) (w i) (w (i+1)) (w (i+2)) (w (i+3))) dx2.

Definition ko_val (n : nat) (w : nat -> F) (i : nat) : F :=
  if (4 <=? i) && (i <? n - 4)
  then ko_s (w (i-4)) (w (i-3)) (w (i-2)) (w (i-1)) (w i) (w (i+1)) (w (i+2)) (w (i+3)) (w (i+4))
  else w i.

Lemma get7_ok v ix s : (forall k, k < 7 -> ix k < length v) ->
  get7 v ix s = Ok (s (nth (ix 0) v f0) (nth (ix 1) v f0) (nth (ix 2) v f0) (nth (ix 3) v f0)
                      (nth (ix 4) v f0) (nth (ix 5) v f0) (nth (ix 6) v f0)).
Proof. intros H. unfold get7. rewrite !(vget_ok v _ f0) by (apply H; lia). reflexivity. Qed.
Lemma get8_ok v ix s : (forall k, k < 8 -> ix k < length v) ->
  get8 v ix s = Ok (s (nth (ix 0) v f0) (nth (ix 1) v f0) (nth (ix 2) v f0) (nth (ix 3) v f0)
                      (nth (ix 4) v f0) (nth (ix 5) v f0) (nth (ix 6) v f0) (nth (ix 7) v f0)).
Proof. intros H. unfold get8. rewrite !(vget_ok v _ f0) by (apply H; lia). reflexivity. Qed.
Lemma get7_ub v s : length v < 7 -> get7 v (fun k => k) s = UB.
Proof. intros H. destruct v as [|? [|? [|? [|? [|? [|? [|? ?]]]]]]]; simpl in H; try lia; reflexivity. Qed.
Lemma get8_ub v s : length v < 8 -> get8 v (fun k => k) s = UB.
Proof. intros H. destruct v as [|? [|? [|? [|? [|? [|? [|? [|? ?]]]]]]]]; simpl in H; try lia; reflexivity. Qed.

(** single-cell fill loops over an arbitrary range *)
Lemma for_fill_range (N lo hi : nat) (body : nat -> list F -> res (list F)) (h : nat -> F) out :
  length out = N -> hi <= N ->
  (forall i o, lo <= i < hi -> length o = N -> body i o = Ok (upd o i (h i))) ->
  exists out', for_ lo hi body out = Ok out' /\ length out' = N /\
    forall j d, nth j out' d = if (lo <=? j) && (j <? hi) then h j else nth j out d.
Proof.
  intros HL HN H.
  destruct (for_modify N lo hi body (fun i _ => h i) out HL HN) as (o & E & Ho & Hj).
  { intros i o x Hi Ho _. apply H; auto. }
  exists o. repeat split; auto. intros j d. specialize (Hj j).
  destruct (Nat.leb_spec lo j), (Nat.ltb_spec j hi); simpl in *.
  2,3,4: destruct (le_lt_dec N j); [rewrite !nth_overflow by lia; reflexivity
      | now rewrite <- !nth_default_eq; unfold nth_default; rewrite Hj].
  destruct (nth_error out j) eqn:Ex; simpl in Hj.
  - apply nth_error_nth. auto.
  - apply nth_error_None in Ex. lia.
Qed.

Ltac upds := repeat first
  [ rewrite nth_upd_eq by (rewrite ?upd_length; lia) | rewrite nth_upd_neq by lia ].

Lemma fd_der_ok b g v dv : 7 <= fd_n g -> length v = fd_n g -> length dv = fd_n g ->
  fd_der b g v dv = Ok (map (der_val (fd_n g) (fd_dx g) (fun i => nth i v f0)) (seq 0 (fd_n g))).
Proof.
  intros Hn Hv Hdv. unfold fd_der. set (n := fd_n g) in *.
  rewrite !assert_true by (apply Nat.eqb_eq; auto). cbn [bind].
  assert (W : forall k, k < 7 -> wsub (wsub n 1) k = n - 1 - k) by (intros; rewrite !wsub_le; try rewrite wsub_le; lia).
  repeat (first
    [ rewrite (get7_ok v (fun k => k)) by (intros; lia)
    | rewrite (get7_ok v (fun k => wsub (wsub n 1) k)) by (intros; rewrite W by lia; lia)
    | rewrite vset_ok by (rewrite ?upd_length, ?wsub_le; lia) ]; cbn [bind]).
  rewrite !W by lia. rewrite !wsub_le by lia. replace (n - 1 - 0) with (n - 1) by lia.
  match goal with |- for_ 3 _ ?bd ?o = _ =>
    destruct (for_fill_range n 3 (n - 3) bd
      (fun i => fdiv (der_s (nth (i-3) v f0) (nth (i-2) v f0) (nth (i-1) v f0)
                     (nth (i+1) v f0) (nth (i+2) v f0) (nth (i+3) v f0)) (fd_dx g)) o) as (out & E & HL & Hj)
  end.
  - rewrite !upd_length; auto.
  - lia.
  - intros i o Hi Ho. rewrite !wsub_le by lia. rewrite !(vget_ok v _ f0) by lia. cbn [bind].
    apply vset_ok. lia.
  - rewrite E. f_equal. apply (vec_ext _ _ f0); [rewrite map_length, seq_length; auto|].
    intros i Hi. rewrite HL in Hi. rewrite nth_map_seq by lia. rewrite Hj. unfold der_val.
    destruct (Nat.leb_spec 3 i), (Nat.ltb_spec i (n - 3)); cbn [andb].
    + do 6 (match goal with |- context [?a =? ?b] => destruct (Nat.eqb_spec a b); [lia|] end). reflexivity.
    + destruct (Nat.eqb_spec i 0), (Nat.eqb_spec i 1), (Nat.eqb_spec i 2),
         (Nat.eqb_spec i (n-1)), (Nat.eqb_spec i (n-2)), (Nat.eqb_spec i (n-3)); try lia; subst i; upds; reflexivity.
    + destruct (Nat.eqb_spec i 0), (Nat.eqb_spec i 1), (Nat.eqb_spec i 2); try lia; subst i; upds; reflexivity.
    + lia.
Qed.

Lemma fd_der2_ok b g v dv : 8 <= fd_n g -> length v = fd_n g -> length dv = fd_n g ->
  fd_der2 b g v dv = Ok (map (der2_val (fd_n g) (fpow (fd_dx g) 2) (fun i => nth i v f0)) (seq 0 (fd_n g))).
Proof.
  intros Hn Hv Hdv. unfold fd_der2. set (n := fd_n g) in *.
  rewrite !assert_true by (apply Nat.eqb_eq; auto). cbn [bind].
  assert (W : forall k, k < 8 -> wsub (wsub n 1) k = n - 1 - k) by (intros; rewrite !wsub_le; try rewrite wsub_le; lia).
  repeat (first
    [ rewrite (get8_ok v (fun k => k)) by (intros; lia)
    | rewrite (get8_ok v (fun k => wsub (wsub n 1) k)) by (intros; rewrite W by lia; lia)
    | rewrite vset_ok by (rewrite ?upd_length, ?W, ?wsub_le; lia) ]; cbn [bind]).
  rewrite !W by lia. rewrite !wsub_le by lia. replace (n - 1 - 0) with (n - 1) by lia.
  match goal with |- for_ 3 _ ?bd ?o = _ =>
    destruct (for_fill_range n 3 (n - 3) bd
      (fun i => fdiv (der2_s (nth (i-3) v f0) (nth (i-2) v f0) (nth (i-1) v f0) (nth i v f0)
                     (nth (i+1) v f0) (nth (i+2) v f0) (nth (i+3) v f0)) (fpow (fd_dx g) 2)) o) as (out & E & HL & Hj)
  end.
  - rewrite !upd_length; auto.
  - lia.
  - intros i o Hi Ho. rewrite !wsub_le by lia. rewrite !(vget_ok v _ f0) by lia. cbn [bind].
    apply vset_ok. lia.
  - rewrite E. f_equal. apply (vec_ext _ _ f0); [rewrite map_length, seq_length; auto|].
    intros i Hi. rewrite HL in Hi. rewrite nth_map_seq by lia. rewrite Hj. unfold der2_val.
    destruct (Nat.leb_spec 3 i), (Nat.ltb_spec i (n - 3)); cbn [andb].
    + do 6 (match goal with |- context [?a =? ?b] => destruct (Nat.eqb_spec a b); [lia|] end). reflexivity.
    + destruct (Nat.eqb_spec i 0), (Nat.eqb_spec i 1), (Nat.eqb_spec i 2),
         (Nat.eqb_spec i (n-1)), (Nat.eqb_spec i (n-1-1)), (Nat.eqb_spec i (n-1-2)); try lia; subst i; upds; reflexivity.
    + destruct (Nat.eqb_spec i 0), (Nat.eqb_spec i 1), (Nat.eqb_spec i 2); try lia; subst i; upds; reflexivity.
    + lia.
Qed.

Lemma fd_filter_ok b g v : 4 <= fd_n g -> length v = fd_n g ->
  fd_filter b g v = Ok (map (ko_val (fd_n g) (fun i => nth i v f0)) (seq 0 (fd_n g))).
Proof.
  intros Hn Hv. unfold fd_filter. set (n := fd_n g) in *.
  rewrite assert_true by (apply Nat.eqb_eq; auto). cbn [bind]. rewrite (wsub_le n 4) by lia.
  set (h := fun i => ko_s (nth (i-4) v f0) (nth (i-3) v f0) (nth (i-2) v f0) (nth (i-1) v f0) (nth i v f0)
                     (nth (i+1) v f0) (nth (i+2) v f0) (nth (i+3) v f0) (nth (i+4) v f0)).
  match goal with |- bind (for_ 4 _ ?bd ?o) _ = _ =>
    destruct (for_fill_range n 4 (n - 4) bd h o) as (tmp & E & HL & Hj)
  end.
  - apply vec_length.
  - lia.
  - intros i o Hi Ho. rewrite !wsub_le by lia. rewrite !(vget_ok v _ f0) by lia. cbn [bind].
    apply vset_ok. lia.
  - rewrite E. cbn [bind].
    match goal with |- for_ 4 _ ?bd ?o = _ =>
      destruct (for_fill_range n 4 (n - 4) bd h o) as (out & E2 & HL2 & Hj2)
    end; auto; try lia.
    + intros i o Hi Ho. rewrite (vget_ok tmp _ f0) by lia. cbn [bind]. rewrite Hj.
      destruct (Nat.leb_spec 4 i), (Nat.ltb_spec i (n-4)); try lia. cbn [andb]. apply vset_ok. lia.
    + rewrite E2. f_equal. apply (vec_ext _ _ f0); [rewrite map_length, seq_length; auto|].
      intros i Hi. rewrite HL2 in Hi. rewrite nth_map_seq by lia. rewrite Hj2. reflexivity.
Qed.

Lemma fd_filter_ub b g v : fd_n g < 4 -> length v = fd_n g -> fd_filter b g v = UB.
Proof.
  intros Hn Hv. unfold fd_filter. set (n := fd_n g) in *.
  rewrite assert_true by (apply Nat.eqb_eq; auto). cbn [bind].
  rewrite for_ub; [reflexivity| |].
  - apply wsub_big; lia.
  - change (wsub 4 4) with 0. change (wsub 4 3) with 1. change (wsub 4 2) with 2. change (wsub 4 1) with 3.
    destruct v as [|? [|? [|? [|? ?]]]]; simpl in Hv; try lia; reflexivity.
Qed.

Lemma fd_der_ub b g v dv : fd_n g < 7 -> length v = fd_n g -> length dv = fd_n g -> fd_der b g v dv = UB.
Proof.
  intros Hn Hv Hdv. unfold fd_der. rewrite !assert_true by (apply Nat.eqb_eq; auto). cbn [bind].
  rewrite get7_ub by lia. reflexivity.
Qed.
Lemma fd_der2_ub b g v dv : fd_n g < 8 -> length v = fd_n g -> length dv = fd_n g -> fd_der2 b g v dv = UB.
Proof.
  intros Hn Hv Hdv. unfold fd_der2. rewrite !assert_true by (apply Nat.eqb_eq; auto). cbn [bind].
  rewrite get8_ub by lia. reflexivity.
Qed.
End PFd.
