(** Loops as folds over lists of indices: used to reason about loop nests. *)
From Verif Require Import Base BaseLemmas.

Fixpoint for_list {I S} (is : list I) (body : I -> S -> res S) (s : S) : res S :=
  match is with [] => Ok s | i :: is' => let! s' := body i s in for_list is' body s' end.

Section ForList.
  Context {S : Type}.

  Lemma for_as_list lo hi (body : nat -> S -> res S) s :
    for_ lo hi body s = for_list (seq lo (hi - lo)) body s.
  Proof.
    unfold for_. generalize (hi - lo) as n. intros n. revert lo s.
    induction n as [|n IH]; intros lo s; simpl; auto. destruct (body lo s); simpl; auto.
  Qed.

  Lemma for_list_app {I} (l1 l2 : list I) (body : I -> S -> res S) s :
    for_list (l1 ++ l2) body s = bind (for_list l1 body s) (for_list l2 body).
  Proof. revert s; induction l1 as [|i l IH]; intros s; simpl; auto. destruct (body i s); simpl; auto. Qed.

  Lemma for_list_map {I J} (h : J -> I) l (body : I -> S -> res S) s :
    for_list (map h l) body s = for_list l (fun j => body (h j)) s.
  Proof. revert s; induction l as [|i l IH]; intros s; simpl; auto. destruct (body (h i) s); simpl; auto. Qed.

  Lemma for_list_ext {I} (l : list I) (b1 b2 : I -> S -> res S) s :
    (forall i s, In i l -> b1 i s = b2 i s) -> for_list l b1 s = for_list l b2 s.
  Proof.
    revert s; induction l as [|i l IH]; intros s H; simpl; auto.
    rewrite H by (left; auto). destruct (b2 i s); simpl; auto. apply IH. intros; apply H; right; auto.
  Qed.

  Lemma for_list_prod {I J} (is : list I) (js : list J) (body : I -> J -> S -> res S) s :
    for_list is (fun i s => for_list js (body i) s) s
    = for_list (list_prod is js) (fun p => body (fst p) (snd p)) s.
  Proof.
    revert s; induction is as [|i is IH]; intros s; simpl; auto.
    rewrite for_list_app, for_list_map. simpl.
    destruct (for_list js (body i) s); simpl; auto.
  Qed.

  Lemma for_list_partial {I} (P : list I -> S -> Prop) (is : list I) (body : I -> S -> res S) s s' :
    P [] s ->
    (forall pre i post s s', is = pre ++ i :: post -> P pre s -> body i s = Ok s' -> P (pre ++ [i]) s') ->
    for_list is body s = Ok s' -> P is s'.
  Proof.
    intros H0 Hs E.
    assert (G : forall pre post s, is = pre ++ post -> P pre s -> for_list post body s = Ok s' -> P is s').
    { intros pre post; revert pre. induction post as [|i post IH]; intros pre t Hd Hp Hr; simpl in Hr.
      - injection Hr as <-. rewrite Hd, app_nil_r. auto.
      - destruct (body i t) as [t'| | | |] eqn:Eb; simpl in Hr; try discriminate.
        apply (IH (pre ++ [i]) t'); auto.
        + rewrite Hd, <- app_assoc. reflexivity.
        + eapply Hs; eauto. }
    apply (G [] is s); auto.
  Qed.

  Lemma for_list_total {I} (P : list I -> S -> Prop) (is : list I) (body : I -> S -> res S) s :
    P [] s ->
    (forall pre i post s, is = pre ++ i :: post -> P pre s -> exists s', body i s = Ok s' /\ P (pre ++ [i]) s') ->
    exists s', for_list is body s = Ok s' /\ P is s'.
  Proof.
    intros H0 Hs.
    assert (G : forall post pre s, is = pre ++ post -> P pre s ->
              exists s', for_list post body s = Ok s' /\ P is s').
    { induction post as [|i post IH]; intros pre t Hd Hp; simpl.
      - exists t. split; auto. rewrite Hd, app_nil_r. auto.
      - destruct (Hs pre i post t Hd Hp) as (t' & E & Hp'). rewrite E. simpl.
        apply (IH (pre ++ [i])); auto. rewrite Hd, <- app_assoc. reflexivity. }
    apply (G is []); auto.
  Qed.

  Lemma for2_as_list n1 n2 (body : nat -> nat -> S -> res S) s :
    for_ 0 n1 (fun i s => for_ 0 n2 (body i) s) s
    = for_list (list_prod (seq 0 n1) (seq 0 n2)) (fun p => body (fst p) (snd p)) s.
  Proof.
    rewrite for_as_list, Nat.sub_0_r, <- for_list_prod. apply for_list_ext.
    intros i t _. now rewrite for_as_list, Nat.sub_0_r.
  Qed.
  Lemma for3_as_list n1 n2 n3 (body : nat -> nat -> nat -> S -> res S) s :
    for_ 0 n1 (fun i s => for_ 0 n2 (fun j s => for_ 0 n3 (body i j) s) s) s
    = for_list (list_prod (seq 0 n1) (list_prod (seq 0 n2) (seq 0 n3)))
        (fun p => body (fst p) (fst (snd p)) (snd (snd p))) s.
  Proof.
    rewrite for_as_list, Nat.sub_0_r.
    rewrite <- (for_list_prod (seq 0 n1) (list_prod (seq 0 n2) (seq 0 n3)) (fun i q => body i (fst q) (snd q))).
    apply for_list_ext. intros i t _. apply for2_as_list.
  Qed.
End ForList.

Lemma NoDup_list_prod {A B} (la : list A) (lb : list B) : NoDup la -> NoDup lb -> NoDup (list_prod la lb).
Proof.
  intros Ha Hb. induction Ha as [|a la Hn Ha IH]; simpl; [constructor|].
  assert (G : forall l1 l2 : list (A * B), NoDup l1 -> NoDup l2 -> (forall x, In x l1 -> ~ In x l2) -> NoDup (l1 ++ l2)).
  { induction l1 as [|x l1 IH1]; intros l2 H1 H2 Hd; simpl; auto. inversion H1; subst. constructor.
    - rewrite in_app_iff. intros [?|?]; [auto|]. apply (Hd x); simpl; auto.
    - apply IH1; auto. intros y Hy. apply Hd. simpl; auto. }
  apply G; auto.
  - clear -Hb. induction Hb as [|b lb Hn Hb IH]; simpl; constructor; auto.
    intros Hin. apply in_map_iff in Hin. destruct Hin as (x & E & Hx). congruence.
  - intros [x y] H1 H2. apply in_map_iff in H1. destruct H1 as (z & E & _). injection E as -> ->.
    apply in_prod_iff in H2. tauto.
Qed.

Lemma nodup_split {A} (l pre post : list A) i : NoDup l -> l = pre ++ i :: post -> ~ In i pre.
Proof. intros H ->. apply NoDup_remove_2 in H. rewrite in_app_iff in H. tauto. Qed.

Lemma In_pts2 n1 n2 p : In p (list_prod (seq 0 n1) (seq 0 n2)) <-> fst p < n1 /\ snd p < n2.
Proof. destruct p as [a b]. rewrite in_prod_iff, !in_seq. simpl. lia. Qed.
Lemma In_pts3 n1 n2 n3 p : In p (list_prod (seq 0 n1) (list_prod (seq 0 n2) (seq 0 n3))) <->
  fst p < n1 /\ fst (snd p) < n2 /\ snd (snd p) < n3.
Proof. destruct p as [a [b c]]. rewrite !in_prod_iff, !in_seq. simpl. lia. Qed.

(** monad inversion *)
Lemma bind_Ok_inv {A B} (m : res A) (k : A -> res B) b : bind m k = Ok b -> exists a, m = Ok a /\ k a = Ok b.
Proof. destruct m; simpl; intros H; try discriminate. eauto. Qed.
Ltac inv_bind H :=
  match type of H with
  | bind ?m ?k = Ok ?b =>
      let a := fresh "x" in let E := fresh "E" in
      apply bind_Ok_inv in H; destruct H as (a & E & H); cbn beta in H
  end.
