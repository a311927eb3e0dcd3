(** * A relation kept by the linear operations is kept by the operators: two runs side by side. *)
From Verif Require Import Base BaseLemmas Arith MFd MCheb MSphere MGrid.
Local Open Scope f.

(** if the first run ends, so does the second, in a related state *)
Definition rr {A} (R : A -> A -> Prop) (r r' : res A) : Prop := forall a, r = Ok a -> exists b, r' = Ok b /\ R a b.
Lemma rr_ok {A} (R : A -> A -> Prop) a b : R a b -> rr R (Ok a) (Ok b).
Proof. intros H x [= <-]. eauto. Qed.
Lemma rr_bind {A B} (R : A -> A -> Prop) (Q : B -> B -> Prop) r r' k k' : rr R r r' -> (forall a b, R a b -> rr Q (k a) (k' b)) -> rr Q (bind r k) (bind r' k').
Proof. intros H K x E. destruct r; try discriminate E. destruct (H _ eq_refl) as (b & -> & Hb). exact (K _ _ Hb _ E). Qed.
Lemma rr_same {A} (r : res A) : rr eq r r.
Proof. intros a ->. eauto. Qed.
Lemma rr_get {A} (R : A -> A -> Prop) l l' i : Forall2 R l l' -> rr R l.[i] l'.[i].
Proof.
  intros H a E. unfold vget in *. revert i E. induction H as [|x y l l' Hx Hl IH]; intros [|i]; cbn; try discriminate.
  - intros [= <-]. eauto.
  - apply IH.
Qed.
Lemma F2_len {A} {R : A -> A -> Prop} {l l'} : Forall2 R l l' -> length l = length l'.
Proof. induction 1; cbn; congruence. Qed.
Lemma F2_upd {A} (R : A -> A -> Prop) l l' i x y : Forall2 R l l' -> R x y -> Forall2 R (upd l i x) (upd l' i y).
Proof. intros H Hx. revert i. induction H; intros [|i]; cbn; constructor; auto. Qed.
Lemma rr_set {A} (R : A -> A -> Prop) l l' i x y : Forall2 R l l' -> R x y -> rr (Forall2 R) (l.[i <- x]) (l'.[i <- y]).
Proof.
  intros H Hx a E. unfold vset in *. rewrite <- (F2_len H). destruct (Nat.ltb i (length l)); [|discriminate].
  injection E as <-. eexists. split; [reflexivity|]. now apply F2_upd.
Qed.
Lemma rr_loop {S} (R : S -> S -> Prop) c lo body body' s s' : (forall i a b, R a b -> rr R (body i a) (body' i b)) -> R s s' ->
  rr R (loop c lo body s) (loop c lo body' s').
Proof. intros H. revert lo s s'. induction c; intros lo s s' Hs; cbn; [now apply rr_ok|]. eapply rr_bind; [apply H; exact Hs|]. auto. Qed.
Lemma rr_for {S} (R : S -> S -> Prop) lo hi body body' s s' : (forall i a b, R a b -> rr R (body i a) (body' i b)) -> R s s' ->
  rr R (for_ lo hi body s) (for_ lo hi body' s').
Proof. apply rr_loop. Qed.
Lemma rr_for_down {S} (R : S -> S -> Prop) lo hi body body' s s' : (forall i a b, R a b -> rr R (body i a) (body' i b)) -> R s s' ->
  rr R (for_down hi lo body s) (for_down hi lo body' s').
Proof.
  intros H. unfold for_down. generalize (hi + 1 - lo)%nat as c. intros c. revert s s'. generalize hi as j. induction c; intros j s s' Hs; cbn; [now apply rr_ok|].
  eapply rr_bind; [apply H; exact Hs|]. auto.
Qed.
Lemma rr_assert {A} (R : A -> A -> Prop) b v v' n : Forall2 R v v' -> rr (fun _ _ => True) (assert_ b (Nat.eqb (length v) n)) (assert_ b (Nat.eqb (length v') n)).
Proof. intros H. rewrite <- (F2_len H). intros a ->. eauto. Qed.
Lemma F2_repeat {A} (R : A -> A -> Prop) n x y : R x y -> Forall2 R (vec n x) (vec n y).
Proof. intros H. unfold vec. induction n; cbn; constructor; auto. Qed.
Lemma F2_nth {A} (R : A -> A -> Prop) l l' i d : Forall2 R l l' -> R d d -> R (nth i l d) (nth i l' d).
Proof. intros H D. revert i. induction H; intros [|i]; cbn; auto. Qed.
Lemma F2_map {A B} (R : B -> B -> Prop) (f g : A -> B) l : (forall x, R (f x) (g x)) -> Forall2 R (map f l) (map g l).
Proof. intros H. induction l; cbn; constructor; auto. Qed.

Section Flip.
Context {F : Type} {AF : Arith F} (P Q : F -> F -> Prop).
Record keeps : Prop := Keeps {
  k_0 : P f0 f0;
  k_add : forall x y x' y', P x x' -> P y y' -> P (x + y) (x' + y');
  k_sub : forall x y x' y', P x x' -> P y y' -> P (x - y) (x' - y');
  k_opp : forall x x', P x x' -> P (- x) (- x');
  k_cl : forall a x x', P x x' -> P (a * x) (a * x');
  k_cr : forall a x x', P x x' -> P (x * a) (x' * a);
  k_dv : forall a x x', P x x' -> P (x / a) (x' / a);
  (** two related factors: the sign is gone *)
  k_mul : forall x y x' y', P x x' -> P y y' -> Q (x * y) (x' * y');
  k_sq : forall x x', P x x' -> Q (x ^^ 2) (x' ^^ 2);
  kq_add : forall x y x' y', Q x x' -> Q y y' -> Q (x + y) (x' + y');
  kq_sub : forall x y x' y', Q x x' -> Q y y' -> Q (x - y) (x' - y');
  kq_opp : forall x x', Q x x' -> Q (- x) (- x') }.
Definition PC (a b : cplx F) : Prop := P (fst a) (fst b) /\ P (snd a) (snd b).
Notation PL := (Forall2 P).
Notation CL := (Forall2 PC).
(** a transform library that commutes with the sign *)
Record odd_lib (h : sht F) : Prop := Oddl {
  o_an : forall v v', PL v v' -> CL (s_an h v) (s_an h v');
  o_sy : forall v v', CL v v' -> PL (s_sy h v) (s_sy h v');
  o_anc : forall v v', CL v v' -> CL (s_anc h v) (s_anc h v');
  o_syc : forall v v', CL v v' -> CL (s_syc h v) (s_syc h v') }.
Hypothesis K : keeps.

Ltac lin := repeat first [assumption | apply (k_0 K) | apply (k_cl K) | apply (k_cr K) | apply (k_dv K) | apply (k_opp K) | apply (k_add K) | apply (k_sub K)].
Ltac st1 := first
 [ apply rr_same
 | eapply rr_assert; eassumption
 | eapply rr_get; eassumption ].
Ltac bnd := eapply rr_bind; [st1|]; let E := fresh "E" in intros ? ? E; try subst.
Ltac bset R := eapply (rr_bind (Forall2 R)); [apply rr_set; [assumption|]|].

Lemma rr_fd_der b g v v' d d' : PL v v' -> PL d d' -> rr PL (fd_der b g v d) (fd_der b g v' d').
Proof.
  intros H D. unfold fd_der, get7. cbv zeta. do 2 bnd.
  repeat (eapply (rr_bind P); [do 7 bnd; apply rr_ok; unfold der_s0, der_s1, der_s2; lin|]; intros ? ? ?; bset P; [lin|]; intros ? ? ?).
  apply rr_for; [|assumption]. intros ? u w Huw. do 6 bnd. apply rr_set; [assumption|]. unfold der_s. lin.
Qed.
Lemma rr_fd_der2 b g v v' d d' : PL v v' -> PL d d' -> rr PL (fd_der2 b g v d) (fd_der2 b g v' d').
Proof.
  intros H D. unfold fd_der2, get8. cbv zeta. do 2 bnd.
  repeat (eapply (rr_bind P); [do 8 bnd; apply rr_ok; unfold der2_s0, der2_s1, der2_s2; lin|]; intros ? ? ?; bset P; [lin|]; intros ? ? ?).
  apply rr_for; [|assumption]. intros ? u w Huw. do 7 bnd. apply rr_set; [assumption|]. unfold der2_s. lin.
Qed.

Lemma rr_fsum n i (t t' : nat -> F) : (forall j, P (t j) (t' j)) -> P (fsum n i t) (fsum n i t').
Proof. intros H. revert i. induction n; intros i; cbn; lin; auto. Qed.
Lemma rr_redft00 v v' : PL v v' -> PL (redft00 v) (redft00 v').
Proof.
  intros H. unfold redft00. rewrite <- (F2_len H). apply F2_map. intros k. pose proof (F2_nth P v v' 0 f0 H (k_0 K)).
  pose proof (F2_nth P v v' (length v - 1) f0 H (k_0 K)). apply (k_add K); [lin|]. apply (k_cl K). apply rr_fsum. intros j.
  pose proof (F2_nth P v v' j f0 H (k_0 K)). lin.
Qed.
Lemma rr_execute g v v' d d' : PL v v' -> PL d d' -> rr PL (execute g v d) (execute g v' d').
Proof.
  intros H D. unfold execute. rewrite <- (F2_len H), <- (F2_len D). destruct (_ && _ && _)%bool; [|intros a E; discriminate E].
  apply rr_ok. now apply rr_redft00.
Qed.
Lemma rr_to_ch b g v v' d d' : PL v v' -> PL d d' -> rr PL (to_ch b g v d) (to_ch b g v' d').
Proof.
  intros H D. unfold to_ch. cbv zeta. do 2 bnd. eapply rr_bind; [apply rr_execute; eassumption|]. intros ? ? ?.
  do 2 (bnd; bset P; [lin|]; intros ? ? ?). apply rr_for; [|assumption]. intros ? u w Huw. bnd. apply rr_set; [assumption|]. lin.
Qed.
Lemma rr_to_po b g v v' d d' : PL v v' -> PL d d' -> rr (fun a b => PL (fst a) (fst b) /\ PL (snd a) (snd b)) (to_po b g v d) (to_po b g v' d').
Proof.
  intros H D. unfold to_po. cbv zeta. do 2 bnd. eapply (rr_bind PL).
  { apply rr_for; [|assumption]. intros ? u w Huw. bnd. apply rr_set; [assumption|]. lin. }
  intros ? ? ?. eapply rr_bind; [apply rr_execute; eassumption|]. intros ? ? ?. apply rr_ok. auto.
Qed.
Lemma rr_cheb_der b g v v' d d' : PL v v' -> PL d d' -> rr PL (cheb_der b g v d) (cheb_der b g v' d').
Proof.
  intros H D. unfold cheb_der. cbv zeta. pose proof (F2_repeat P (ch_n g) _ _ (k_0 K)). do 2 bnd.
  eapply rr_bind; [apply rr_to_ch; eassumption|]. intros ? ? ?. do 2 (bset P; [lin|]; intros ? ? ?).
  eapply (rr_bind PL). { apply rr_for; [|assumption]. intros ? u w Huw. bnd. apply rr_set; assumption. }
  intros ? ? ?. eapply (rr_bind PL). { apply rr_for_down; [|assumption]. intros ? u w Huw. do 2 bnd. apply rr_set; [assumption|]. lin. }
  intros ? ? ?. bnd. bset P; [lin|]. intros ? ? ?. eapply rr_bind; [apply rr_to_po; eassumption|]. intros [? ?] [? ?] [? ?]. cbn [fst snd] in *.
  apply rr_for; [|assumption]. intros ? u w Huw. bnd. apply rr_set; [assumption|]. lin.
Qed.

(** ** the sphere *)
Lemma rr_copy_in {A} (R : A -> A -> Prop) z n v v' : R z z -> Forall2 R v v' -> rr (Forall2 R) (copy_in z n v) (copy_in z n v').
Proof. intros Z H. unfold copy_in. apply rr_for; [|now apply F2_repeat]. intros ? u w Huw. bnd. now apply rr_set. Qed.
Lemma rr_copy_out {A} (R : A -> A -> Prop) n v v' d d' : Forall2 R v v' -> Forall2 R d d' -> rr (Forall2 R) (copy_out n v d) (copy_out n v' d').
Proof. intros H D. unfold copy_out. apply rr_for; [|assumption]. intros ? u w Huw. bnd. now apply rr_set. Qed.
Lemma PC_0 : PC c0 c0. Proof. split; apply (k_0 K). Qed.
Lemma PC_cmul x x' a : PC x x' -> PC (cmul x a) (cmul x' a).
Proof. intros [H H']. split; unfold cmul; cbn [fst snd]; lin. Qed.
Lemma PC_cscale x x' a : PC x x' -> PC (cscale a x) (cscale a x').
Proof. intros [H H']. split; unfold cscale; cbn [fst snd]; lin. Qed.
Lemma PC_cmulr x x' a : PC x x' -> PC (cmulr x a) (cmulr x' a).
Proof. intros [H H']. split; unfold cmulr; cbn [fst snd]; lin. Qed.
Lemma rr_lm s body y y' : (forall l m c c', PC c c' -> rr PC (body l m c) (body l m c')) -> CL y y' -> rr CL (lm_loop s body y) (lm_loop s body y').
Proof.
  intros B H. unfold lm_loop. apply rr_for; [|assumption]. intros ? u w Huw. apply rr_for; [|assumption]. intros m c d Hcd. bnd.
  eapply rr_bind; [apply B; eassumption|]. intros ? ? ?. apply rr_set; assumption.
Qed.
Section Lib.
Variable s : sphere F.
Hypothesis O : odd_lib (sp_shtns s).
Lemma rr_lap b v v' d d' : PL v v' -> PL d d' -> rr PL (laplace_beltrami b s v d) (laplace_beltrami b s v' d').
Proof.
  intros H D. unfold laplace_beltrami. do 2 bnd. eapply rr_bind; [apply rr_copy_in; [apply (k_0 K)|eassumption]|]. intros ? ? ?.
  eapply rr_bind; [apply rr_lm; [|apply (o_an _ O); eassumption]|]. { intros. bnd. apply rr_ok. now apply PC_cmulr. }
  intros ? ? ?. apply rr_copy_out; [apply (o_sy _ O)|]; assumption.
Qed.
Lemma rr_phi b v v' d d' : PL v v' -> PL d d' -> rr PL (partial_phi b s v d) (partial_phi b s v' d').
Proof.
  intros H D. unfold partial_phi. cbv zeta. do 2 bnd. eapply rr_bind; [apply rr_copy_in; [apply (k_0 K)|eassumption]|]. intros ? ? ?.
  eapply rr_bind; [apply rr_lm; [|apply (o_an _ O); eassumption]|]. { intros. apply rr_ok. now apply PC_cmul. }
  intros ? ? ?. apply rr_copy_out; [apply (o_sy _ O)|]; assumption.
Qed.
Lemma rr_sp_filter b v v' : PL v v' -> rr PL (sp_filter b s v) (sp_filter b s v').
Proof.
  intros H. unfold sp_filter. bnd. eapply rr_bind; [apply rr_copy_in; [apply (k_0 K)|eassumption]|]. intros ? ? ?.
  eapply rr_bind; [apply rr_lm; [|apply (o_an _ O); eassumption]|]. { intros. do 2 bnd. apply rr_ok. now apply PC_cmulr. }
  intros ? ? ?. apply rr_copy_out; [apply (o_sy _ O)|]; assumption.
Qed.
Lemma rr_copy_re n v v' : PL v v' -> rr CL (copy_re n v) (copy_re n v').
Proof. intros H. unfold copy_re. apply rr_for; [|apply F2_repeat, PC_0]. intros ? u w Huw. bnd. apply rr_set; [assumption|]. split; cbn; [assumption|apply (k_0 K)]. Qed.
Lemma rr_raise b v v' d d' : PL v v' -> CL d d' -> rr CL (raise b s v d) (raise b s v' d').
Proof.
  intros H D. unfold raise. do 2 bnd. eapply rr_bind; [apply rr_copy_re; eassumption|]. intros ? ? ?. eapply (rr_bind CL).
  { unfold raise_coefs. cbv zeta. apply rr_for; [|apply (o_anc _ O); assumption]. intros ? u w Huw. eapply (rr_bind CL).
    { apply rr_for; [|assumption]. intros k x y Hxy. bnd. apply rr_set; [assumption|]. now apply PC_cscale. }
    intros ? ? ?. apply rr_set; [assumption|apply PC_0]. }
  intros ? ? ?. apply rr_copy_out; [apply (o_syc _ O)|]; assumption.
Qed.
Lemma rr_lower b v v' d d' : PL v v' -> CL d d' -> rr CL (lower b s v d) (lower b s v' d').
Proof.
  intros H D. unfold lower. do 2 bnd. eapply rr_bind; [apply rr_copy_re; eassumption|]. intros ? ? ?. eapply (rr_bind CL).
  { unfold lower_coefs. cbv zeta. apply rr_for; [|apply (o_anc _ O); assumption]. intros ? u w Huw. eapply (rr_bind CL).
    { apply rr_for; [|assumption]. intros k x y Hxy. bnd. apply rr_set; [assumption|]. now apply PC_cscale. }
    intros ? ? ?. apply rr_set; [assumption|apply PC_0]. }
  intros ? ? ?. apply rr_copy_out; [apply (o_syc _ O)|]; assumption.
Qed.
Lemma rr_sphereX b v v' d d' : PL v v' -> Forall2 Q d d' -> rr (Forall2 Q) (sphereX b s v d) (sphereX b s v' d').
Proof.
  intros H D. unfold sphereX. cbv zeta. do 2 bnd. pose proof (F2_repeat PC (sp_nSph s) _ _ PC_0). pose proof (F2_repeat P (sp_nSph s) _ _ (k_0 K)).
  eapply rr_bind; [apply rr_raise; eassumption|]. intros ? ? ?. eapply rr_bind; [apply rr_lower; eassumption|]. intros ? ? ?.
  eapply rr_bind; [apply rr_phi; eassumption|]. intros ? ? ?. apply rr_for; [|assumption]. intros ? u w Huw. do 3 bnd. apply rr_set; [assumption|].
  repeat match goal with H : PC _ _ |- _ => destruct H end. unfold cmul; cbn [fst snd].
  apply (kq_add K); [apply (kq_opp K), (kq_sub K); apply (k_mul K); assumption|]. now apply (k_sq K).
Qed.
End Lib.

(** ** the grid *)
Lemma rr_gather {R : F -> F -> Prop} n dst src v v' d d' : Forall2 R v v' -> Forall2 R d d' -> rr (Forall2 R) (gather n dst src v d) (gather n dst src v' d').
Proof. intros H D. unfold gather. apply rr_for; [|assumption]. intros ? u w Huw. bnd. now apply rr_set. Qed.
Lemma rr_gather2 {R : F -> F -> Prop} n m dst src v v' d d' : Forall2 R v v' -> Forall2 R d d' -> rr (Forall2 R) (gather2 n m dst src v d) (gather2 n m dst src v' d').
Proof. intros H D. unfold gather2. apply rr_for; [|assumption]. intros ? u w Huw. apply rr_for; [|assumption]. intros j x y Hxy. bnd. now apply rr_set. Qed.
Section Gr.
Variable g : grid F.
Hypothesis O : odd_lib (sp_shtns (g_sphere g)).
Lemma rr_shell (R : F -> F -> Prop) op v v' d d' : R f0 f0 -> (forall x x' y y', PL x x' -> Forall2 R y y' -> rr (Forall2 R) (op x y) (op x' y')) ->
  PL v v' -> Forall2 R d d' -> rr (Forall2 R) (shell_op g op v d) (shell_op g op v' d').
Proof.
  intros Z Hop H D. unfold shell_op. do 2 bnd. apply rr_for; [|assumption]. intros ? u w Huw. unfold shell_body.
  eapply (rr_bind PL). { unfold get_row_th_ph, sph0. do 1 bnd. pose proof (F2_repeat P (g_nlat g * g_nphi g) _ _ (k_0 K)). bnd. apply rr_gather2; assumption. }
  intros ? ? ?. eapply rr_bind; [apply Hop; [eassumption|apply F2_repeat, Z]|]. intros ? ? ?. unfold set_row_th_ph. do 2 bnd. apply rr_gather2; assumption.
Qed.
Lemma rr_line op v v' d d' : (forall x x', PL x x' -> rr PL (op x) (op x')) -> PL v v' -> PL d d' -> rr PL (line_op g op v d) (line_op g op v' d').
Proof.
  intros Hop H D. unfold line_op. do 2 bnd. apply rr_for; [|assumption]. intros ? u w Huw. apply rr_for; [|assumption]. intros ip x y Hxy. unfold line_body.
  eapply (rr_bind PL). { unfold get_row_R, rad0. bnd. pose proof (F2_repeat P (g_nx g) _ _ (k_0 K)). bnd. apply rr_gather; assumption. }
  intros ? ? ?. eapply rr_bind; [apply Hop; eassumption|]. intros ? ? ?. unfold set_row_R. do 2 bnd. apply rr_gather; assumption.
Qed.
Lemma rr_rad_der v v' d d' : PL v v' -> PL d d' -> rr PL (rad_der (g_bld g) (g_radial g) v d) (rad_der (g_bld g) (g_radial g) v' d').
Proof. intros H D. unfold rad_der. destruct (g_radial g); first [apply rr_cheb_der; assumption|apply rr_fd_der; assumption]. Qed.
Lemma rr_partial_r v v' d d' : PL v v' -> PL d d' -> rr PL (set_partial_r g v d) (set_partial_r g v' d').
Proof.
  intros H D. apply rr_line; try assumption. intros x x' Hx. unfold line_r. pose proof (F2_repeat P (g_nx g) _ _ (k_0 K)).
  eapply rr_bind; [apply rr_rad_der; eassumption|]. intros ? ? ?. apply rr_for; [|assumption]. intros ? u w Huw. do 2 bnd. apply rr_set; [assumption|]. lin.
Qed.
Lemma rr_partial2_r v v' d d' : PL v v' -> PL d d' -> rr PL (set_partial2_r g v d) (set_partial2_r g v' d').
Proof.
  intros H D. apply rr_line; try assumption. intros x x' Hx. unfold line_r2. pose proof (F2_repeat P (g_nx g) _ _ (k_0 K)).
  eapply rr_bind; [apply rr_rad_der; eassumption|]. intros ? ? ?. eapply (rr_bind PL).
  { destruct (g_radial g); first [apply rr_cheb_der; assumption|apply rr_fd_der2; assumption]. }
  intros ? ? ?. apply rr_for; [|assumption]. intros ? u w Huw. do 4 bnd. apply rr_set; [assumption|]. lin.
Qed.
Lemma rr_spherical_lap v v' d d' : PL v v' -> PL d d' -> rr PL (set_spherical_lap g v d) (set_spherical_lap g v' d').
Proof. intros H D. apply rr_shell; auto using (k_0 K). intros. now apply rr_lap. Qed.
Lemma rr_partial_phi v v' d d' : PL v v' -> PL d d' -> rr PL (set_partial_phi g v d) (set_partial_phi g v' d').
Proof. intros H D. apply rr_shell; auto using (k_0 K). intros. now apply rr_phi. Qed.
Lemma rr_set_sphereX v v' d d' : Q f0 f0 -> PL v v' -> Forall2 Q d d' -> rr (Forall2 Q) (set_sphereX g v d) (set_sphereX g v' d').
Proof. intros Z H D. apply rr_shell; auto. intros. now apply rr_sphereX. Qed.
Lemma rr_filter v v' : PL v v' -> rr PL (grid_filter g v) (grid_filter g v').
Proof.
  intros H. unfold grid_filter. bnd. eapply (rr_bind PL).
  { apply rr_for; [|assumption]. intros ? u w Huw. unfold filter_shell. eapply (rr_bind PL).
    { unfold get_row_th_ph, sph0. bnd. pose proof (F2_repeat P (g_nlat g * g_nphi g) _ _ (k_0 K)). bnd. apply rr_gather2; assumption. }
    intros ? ? ?. eapply rr_bind; [apply rr_sp_filter; eassumption|]. intros ? ? ?. unfold set_row_th_ph. do 2 bnd. apply rr_gather2; assumption. }
  intros ? ? ?. apply rr_for; [|assumption]. intros ? u w Huw. apply rr_for; [|assumption]. intros ip x' y' Hxy'. unfold filter_line.
  eapply (rr_bind PL). { unfold get_row_R, rad0. bnd. pose proof (F2_repeat P (g_nx g) _ _ (k_0 K)). bnd. apply rr_gather; assumption. }
  intros ? ? ?. do 2 bnd. eapply (rr_bind PL). { unfold set_row_R. do 2 bnd. apply rr_gather; assumption. }
  intros ? ? ?. do 2 (bset P; [assumption|]; intros ? ? ?). apply rr_ok. assumption.
Qed.
End Gr.
End Flip.
