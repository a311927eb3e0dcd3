(** Calculus of the compactification R(r) = r/(1+r/cl). *)
From Coq Require Import Reals Lra.
From Coquelicot Require Import Coquelicot.
From Verif Require Import Base Arith MSim.
Local Open Scope R_scope.

Section Comp.
Variable cl : R.
Hypothesis Hcl : cl <> 0.
Definition rphys (X : R) : R := X / (1 - X / cl).

Lemma one_minus X : X <> cl -> 1 - X / cl <> 0.
Proof. intros H E. apply H. replace X with (cl * (X / cl)) by (field; auto). replace (X / cl) with 1 by lra. ring. Qed.
Lemma one_plus_rphys X : X <> cl -> 1 + rphys X / cl = / (1 - X / cl).
Proof.
  intros H. pose proof (one_minus X H). unfold rphys. field. split; auto. intros E. apply H. lra.
Qed.
Lemma comp_rphys X : X <> cl -> compactification cl (rphys X) = X.
Proof.
  intros H. pose proof (one_minus X H). unfold compactification. rewrite one_plus_rphys by auto. unfold rphys. field.
  split; auto. intros E. apply H. lra.
Qed.
Lemma sum_nz r : 1 + r / cl <> 0 -> cl + r <> 0.
Proof. intros H E. apply H. replace (1 + r / cl) with ((cl + r) / cl) by (field; auto). rewrite E. field; auto. Qed.
Lemma comp_derive r : 1 + r / cl <> 0 -> is_derive (compactification cl) r (/ (1 + r / cl) ^ 2).
Proof.
  intros H. pose proof (sum_nz r H).
  unfold compactification. auto_derive; [repeat split; auto|]. field. split; auto.
Qed.
Lemma comp_nz_open r : 1 + r / cl <> 0 -> locally r (fun y => 1 + y / cl <> 0).
Proof.
  intros H.
  assert (C : continuous (fun y => 1 + y / cl) r) by (apply (ex_derive_continuous (V:=R_NormedModule)); auto_derive; auto).
  apply (C (fun z => z <> 0)). apply (open_neq 0). exact H.
Qed.
Lemma comp_cont r : 1 + r / cl <> 0 -> continuous (compactification cl) r.
Proof. intros H. apply (ex_derive_continuous (V:=R_NormedModule)). eexists. now apply comp_derive. Qed.

Lemma comp_chain1 f r : 1 + r / cl <> 0 -> ex_derive f (compactification cl r) ->
  Derive (fun y => f (compactification cl y)) r = Derive f (compactification cl r) / (1 + r / cl) ^ 2.
Proof.
  intros H Hf. apply is_derive_unique.
  eapply is_derive_ext; [reflexivity|].
  replace (Derive f (compactification cl r) / (1 + r / cl) ^ 2) with (scal (/ (1 + r / cl) ^ 2) (Derive f (compactification cl r))).
  - apply (is_derive_comp f (compactification cl)); [apply Derive_correct; auto|now apply comp_derive].
  - unfold scal; simpl; unfold mult; simpl. unfold Rdiv. ring.
Qed.
Lemma comp_chain2 f r : 1 + r / cl <> 0 -> locally (compactification cl r) (ex_derive f) -> ex_derive_n f 2 (compactification cl r) ->
  Derive_n (fun y => f (compactification cl y)) 2 r =
  (-2 / cl) / (1 + r / cl) ^ 3 * Derive f (compactification cl r) + Derive_n f 2 (compactification cl r) / (1 + r / cl) ^ 4.
Proof.
  intros H Hl H2. simpl Derive_n.
  rewrite (Derive_ext_loc _ (fun y => Derive f (compactification cl y) / (1 + y / cl) ^ 2)).
  - apply is_derive_unique.
    assert (Hc := comp_derive r H).
    assert (HD : is_derive (fun y => Derive f (compactification cl y)) r
                  (scal (/ (1 + r / cl) ^ 2) (Derive (Derive f) (compactification cl r)))).
    { apply (is_derive_comp (Derive f) (compactification cl)); auto. apply Derive_correct.
      exact H2. }
    assert (HI : is_derive (fun y => / (1 + y / cl) ^ 2) r (-2 / cl / (1 + r / cl) ^ 3)).
    { pose proof (sum_nz r H).
      auto_derive; [repeat split; auto; simpl; rewrite Rmult_1_r; now apply Rmult_integral_contrapositive|]. field. split; auto. }
    pose proof (is_derive_mult _ _ r _ _ HD HI (Rmult_comm)) as K. unfold plus, mult in K; simpl in K.
    eapply is_derive_ext in K; [|intros t; unfold mult; simpl; reflexivity].
    match goal with |- is_derive _ _ ?e => match type of K with is_derive _ _ ?e' => replace e with e' end end.
    + exact K.
    + unfold scal; simpl; unfold mult; simpl. pose proof (sum_nz r H). 
      set (A := Derive f (compactification cl r)).
      change (Derive (fun x => Derive (fun y => f y) x) (compactification cl r)) with (Derive (Derive f) (compactification cl r)).
      set (B := Derive (Derive f) (compactification cl r)). field. split; auto.
  - assert (L1 := comp_nz_open r H). assert (L2 := comp_cont r H (ex_derive f) Hl).
    unfold filtermap in L2. generalize (filter_and _ _ L1 L2). apply filter_imp. intros y [A B]. now apply comp_chain1.
Qed.

(** in terms of the compactified coordinate X = R(r) *)
Lemma chain1 f X : X <> cl -> ex_derive f X ->
  Derive (fun r => f (compactification cl r)) (rphys X) = Derive f X * (1 - X / cl) ^ 2.
Proof.
  intros H Hf. pose proof (one_minus X H). rewrite comp_chain1; rewrite ?one_plus_rphys, ?comp_rphys; auto.
  - field. split; auto. intros E; apply H; lra.
  - now apply Rinv_neq_0_compat.
Qed.
Lemma chain2 f X : X <> cl -> locally X (ex_derive f) -> ex_derive_n f 2 X ->
  Derive_n (fun r => f (compactification cl r)) 2 (rphys X) =
  (-2 / cl) * (1 - X / cl) ^ 3 * Derive f X + ((1 - X / cl) ^ 2) ^ 2 * Derive_n f 2 X.
Proof.
  intros H Hf H2. pose proof (one_minus X H). rewrite comp_chain2; rewrite ?one_plus_rphys, ?comp_rphys; auto.
  - field; repeat split; auto; intros E; apply H; lra.
  - now apply Rinv_neq_0_compat.
Qed.
End Comp.
