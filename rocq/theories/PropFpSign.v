(** * C103: minus the data gives minus the solution, in double precision, as long as no point is special.
    In exact arithmetic (C73) the equations of an even theory are odd in (f, p) without exception.  In binary64 there are two
    exceptions, and C93_sign_symmetry_refuted hits the first: f = -1 makes km1/(f+1) a NaN although km1 is zero.  The theorems
    here say these are the only ones: rounding itself never breaks the symmetry, for any data, on any grid, for either radial
    discretisation, for any number of steps, overflow and NaN included. *)
From Coq Require Import ZArith SpecFloat Bool Lia.
From Verif Require Import Base BaseLemmas Arith MFd MCheb MSphere MGrid MParams MField MEom FpSign FlipOps.

Section C103.
(** whatever the C library's exp, log, cos, sin, acos and the constant pi are *)
Variables (lexp llog lcos lsin lacos : spec_float -> spec_float) (lpi : spec_float).
#[local] Instance b64_here : Arith spec_float := b64 lexp llog lcos lsin lacos lpi.
Local Open Scope f.
Notation FL := spec_float.

(** the same number, or its negative; FpSign.rel looks neither at the sign of a zero nor into a NaN *)
Notation opp := (rel true).
Notation eqv := (rel false).
Notation flip := (Forall2 opp).
Notation same := (Forall2 eqv).

(** ** the relation is kept *)
Lemma eqv_k s x y a : rel s x y -> rel s (x * a) (y * a).
Proof. intros H. pose proof (rel_mul s false x a y a H (rel_refl a)) as G. now rewrite xorb_false_r in G. Qed.
Lemma keeps_ : keeps (AF := b64_here) opp eqv.
Proof.
  split.
  - exact I.
  - intros. now apply (rel_add true).
  - intros. now apply (rel_sub true).
  - intros. now apply rel_opp2.
  - intros. now apply (rel_mul false true _ _ _ _ (rel_refl a)).
  - intros. now apply eqv_k.
  - intros. apply (rel_div true false); [assumption|apply rel_refl|now left].
  - intros. now apply (rel_mul true true).
  - intros. now apply (rel_pow true _ _ 2).
  - intros. now apply (rel_add false).
  - intros. now apply (rel_sub false).
  - intros. now apply rel_opp2.
Qed.
(** ** theories that do not distinguish f from -f: k and V are even functions *)
Definition even_theory (e : eom FL) : Prop := zero (e_km1 e) /\ zero (e_k1 e) /\ zero (e_v3 e).
(** k(f), as scalar_eom.cpp:176 computes the divisor *)
Definition k_of (e : eom FL) (f : FL) : FL := e_k0 e + e_km1 e / (f + #1) + e_k1 e * f + (e_k2 e / #2) * (f ^^ 2).
(** a value the symmetry holds at: neither f nor -f is at the pole of km1/(f+1), and k(f) is not zero *)
Definition calm (e : eom FL) (f : FL) : Prop := ~ zero ((f + #1) ^^ 2) /\ ~ zero ((- f + #1) ^^ 2) /\ ~ zero (k_of e f).


Lemma nz_sq x : ~ zero (x ^^ 2) -> ~ zero x.
Proof. intros H Z. apply H. now apply (zero_mul x x). Qed.
Lemma one_fin : exists s m e, #1 = S754_finite s m e. Proof. repeat eexists. Qed.
Lemma two_fin : exists s m e, #2 = S754_finite s m e. Proof. repeat eexists. Qed.
Lemma six_fin : exists s m e, #6 = S754_finite s m e. Proof. repeat eexists. Qed.
Lemma plus_one_nan x y : rel true x y -> (x + #1 = S754_nan <-> y + #1 = S754_nan).
Proof. intros H. destruct one_fin as (s & m & e & E). change (SFadd 53 1024 x #1 = S754_nan <-> SFadd 53 1024 y #1 = S754_nan). rewrite E, !add_num. now apply (rel_nan true). Qed.

Section Point.
Variable e : eom FL.
Hypothesis E : even_theory e.
Variables f f' : FL.
Hypothesis H : opp f f'.
Hypothesis C : calm e f.

Lemma calm_facts : ~ zero (f + #1) /\ ~ zero (f' + #1) /\ ~ zero ((f + #1) ^^ 2) /\ ~ zero ((f' + #1) ^^ 2).
Proof.
  destruct C as (C1 & C2 & _). assert (Q : eqv (- f + #1) (f' + #1)).
  { apply (rel_add false); [|apply rel_refl]. apply (opp_trans f); [apply rel_opp|exact H]. }
  assert (C3 : ~ zero ((f' + #1) ^^ 2)). { intros Z. apply C2. apply (rel_is_zero false _ _ (rel_pow false _ _ 2 Q)), Z. }
  auto using nz_sq.
Qed.
Lemma km1_term : eqv (e_km1 e / (f + #1)) (e_km1 e / (f' + #1)).
Proof. destruct calm_facts as (A & B & _), E as (Z & _). apply zero_div; auto. now apply plus_one_nan. Qed.
Lemma k_even : eqv (k_of e f) (k_of e f').
Proof.
  destruct E as (_ & Z & _). unfold k_of. apply (rel_add false); [apply (rel_add false); [apply (rel_add false)|]|].
  - apply rel_refl.
  - apply km1_term.
  - now apply (rel_zero_mul true).
  - apply (rel_mul false false); [apply rel_refl|]. now apply (rel_pow true _ _ 2).
Qed.
Lemma k'_nz : ~ zero (k_of e f').
Proof. destruct C as (_ & _ & N). intros Z. apply N. now apply (rel_is_zero false _ _ k_even). Qed.
Lemma inv_even : eqv (inverse_k e f) (inverse_k e f').
Proof. unfold inverse_k. fold (k_of e f) (k_of e f'). apply (rel_div false false); [apply rel_refl|apply k_even|]. right. apply C. Qed.
Lemma sq_nan x y : (x = S754_nan <-> y = S754_nan) -> (x ^^ 2 = S754_nan <-> y ^^ 2 = S754_nan).
Proof.
  assert (G : forall z, z ^^ 2 = S754_nan <-> z = S754_nan).
  { intros z. change (SFmul 53 1024 z z = S754_nan <-> z = S754_nan). destruct z as [a|a| |a m g]; cbn; try (split; discriminate); [tauto|].
    split; [|discriminate]. intros G. edestruct aux_num; [|exact G]. lia. }
  now rewrite !G.
Qed.
Lemma kprime_odd : opp (kprime e f) (kprime e f').
Proof.
  destruct calm_facts as (_ & _ & A & B), E as (Z1 & Z2 & _). unfold kprime. apply (rel_add true); [apply (rel_add true)|].
  - apply zero_div; auto; [destruct (e_km1 e); try contradiction; exact I|]. apply sq_nan. now apply plus_one_nan.
  - now apply rel_zero.
  - apply (rel_mul false true); [apply rel_refl|exact H].
Qed.
Lemma vprime_odd : opp (vprime e f) (vprime e f').
Proof.
  destruct E as (_ & _ & Z). unfold vprime. apply (rel_mul false true); [apply inv_even|]. apply (rel_add true); [apply (rel_add true)|].
  - apply (rel_mul false true); [apply rel_refl|exact H].
  - apply rel_zero_mul with (s := false); [now apply zero_div_k, two_fin|]. now apply (rel_pow true _ _ 2).
  - apply (rel_mul false true); [apply rel_refl|]. now apply (rel_pow true _ _ 3).
Qed.
(** the right-hand side of the wave equation at one point *)
Theorem C103_point c p p' a a' b b' d d' h h' i i' l l' x x' :
  opp p p' -> opp a a' -> opp b b' -> opp d d' -> opp h h' -> opp i i' -> opp l l' -> eqv x x' ->
  opp (p_rhs e c f p a b d h i l x) (p_rhs e c f' p' a' b' d' h' i' l' x').
Proof.
  intros Hp Ha Hb Hd Hh Hi Hl Hx. unfold p_rhs.
  assert (K : forall q u v s, rel s u v -> rel s (q * u) (q * v)). { intros q u v [|] G; [apply (rel_mul false true)|apply (rel_mul false false)]; auto using rel_refl. }
  apply (rel_sub true); [|apply K, vprime_odd]. repeat apply (rel_add true); try (apply K; assumption).
  apply (rel_mul true false); [apply K, (rel_mul true false); [apply kprime_odd|apply inv_even]|].
  repeat apply (rel_add false); try apply K.
  - now apply (rel_pow true _ _ 2).
  - apply (rel_mul true true); [now apply K|assumption].
  - now apply (rel_pow true _ _ 2).
  - apply (rel_mul true true); [now apply K|assumption].
  - assumption.
Qed.
(** the energy density at one point *)
Theorem C103_rho_point c p p' a a' h h' x x' : opp p p' -> opp a a' -> opp h h' -> eqv x x' ->
  eqv (rho_at e c f p a h x) (rho_at e c f' p' a' h' x').
Proof.
  intros Hp Ha Hh Hx. unfold rho_at. fold (k_of e f) (k_of e f').
  assert (K : forall q u v s, rel s u v -> rel s (q * u) (q * v)). { intros q u v [|] G; [apply (rel_mul false true)|apply (rel_mul false false)]; auto using rel_refl. }
  apply (rel_add false).
  - apply (rel_mul false false); [apply eqv_k, k_even|]. repeat apply (rel_add false); try apply K.
    + now apply (rel_pow true _ _ 2).
    + apply (rel_mul true true); [now apply K|assumption].
    + now apply (rel_pow true _ _ 2).
    + apply (rel_mul true true); [now apply K|assumption].
    + assumption.
  - destruct E as (_ & _ & Z). repeat apply (rel_add false).
    + apply K. now apply (rel_pow true _ _ 2).
    + apply rel_zero_mul with (s := true); [now apply zero_div_k, six_fin|]. now apply (rel_pow true _ _ 3).
    + apply K. now apply (rel_pow true _ _ 4).
Qed.
End Point.

(** ** whole grids *)
Definition twin_scr (s s' : scratch FL) : Prop :=
  flip (s_dr_f s) (s_dr_f s') /\ flip (s_lap_f s) (s_lap_f s') /\ flip (s_dr_p s) (s_dr_p s') /\ flip (s_dr_dr_f s) (s_dr_dr_f s') /\
  flip (s_dphi_f s) (s_dphi_f s') /\ flip (s_dphi_dr_f s) (s_dphi_dr_f s') /\ same (s_sphereX_f s) (s_sphereX_f s').
(** the second run's equation object: the same equations, and its work arrays hold the negatives *)
Definition twin_eom (e e' : eom FL) : Prop := exists s', e' = with_scr e s' /\ twin_scr (e_scr e) s'.
Definition twin (f f' : field FL) : Prop :=
  fl_size f' = fl_size f /\ flip (fl_n f) (fl_n f') /\ flip (fl_l f) (fl_l f') /\ flip (fl_np1 f) (fl_np1 f') /\ flip (fl_k f) (fl_k f').
Definition twins (u u' : field FL * field FL * eom FL) : Prop :=
  let '(f, p, e) := u in let '(f', p', e') := u' in twin f f' /\ twin p p' /\ twin_eom e e'.
Definition all_calm (e : eom FL) (f : list FL) : Prop := Forall (calm e) f.

Variable g : grid FL.
(** SHTns: the transform of minus a function is minus its transform *)
Hypothesis Hlib : odd_lib opp (sp_shtns (g_sphere g)).

Lemma calm_F2 e f f' : all_calm e f -> flip f f' -> Forall2 (fun a b => opp a b /\ calm e a) f f'.
Proof. intros C H. induction H; constructor; inversion C; subst; auto. Qed.
Lemma F2_same (l : list FL) : same l l. Proof. induction l; constructor; auto using rel_refl. Qed.

Ltac go R := eapply (rr_bind R); [|intros ? ? ?].
Ltac assertion := eapply rr_bind; [eapply rr_assert; eassumption|]; intros _ _ _.
Lemma rr_set_k e e' f f' p p' fk fk' pk pk' : even_theory e -> twin_eom e e' -> all_calm e f -> flip f f' -> flip p p' -> flip fk fk' -> flip pk pk' ->
  rr (fun a b => let '(x, y, z) := a in let '(x', y', z') := b in flip x x' /\ flip y y' /\ exists s, z = with_scr e s /\ twin_eom z z')
     (set_k g e f p fk pk) (set_k g e' f' p' fk' pk').
Proof.
  intros E (s' & -> & S) C Hf Hp Hfk Hpk. pose proof (calm_F2 _ _ _ C Hf) as HC. unfold set_k. cbv zeta. change (e_n (with_scr e s')) with (e_n e). do 4 assertion.
  go twin_scr.
  { destruct S as (S1 & S2 & S3 & S4 & S5 & S6 & S7). unfold k_sections. cbn [e_scr with_scr].
    eapply rr_bind; [apply (rr_partial_r opp eqv keeps_); eassumption|]. intros ? ? ?.
    eapply rr_bind; [apply (rr_partial_r opp eqv keeps_); eassumption|]. intros ? ? ?.
    eapply rr_bind; [apply (rr_partial2_r opp eqv keeps_); eassumption|]. intros ? ? ?.
    eapply rr_bind; [apply (rr_partial_phi opp eqv keeps_); eassumption|]. intros ? ? ?.
    eapply rr_bind; [apply (rr_partial_r opp eqv keeps_); eassumption|]. intros ? ? ?.
    eapply rr_bind; [apply (rr_set_sphereX opp eqv keeps_); [assumption|exact I|eassumption|eassumption]|]. intros ? ? ?.
    eapply rr_bind; [apply (rr_spherical_lap opp eqv keeps_); eassumption|]. intros ? ? ?. apply rr_ok. repeat (split; [assumption|]). assumption. }
  rename a into s1, b into s1'. match goal with H : twin_scr s1 s1' |- _ => destruct H as (S1 & S2 & S3 & S4 & S5 & S6 & S7) end.
  eapply (rr_bind (fun a b => flip (fst a) (fst b) /\ flip (snd a) (snd b))).
  { apply rr_for; [|split; assumption]. intros i [u v] [u' v'] [U V]. cbn [fst snd] in *.
    eapply rr_bind; [eapply rr_get, HC|]. intros fi fi' [Fi Ci]. eapply rr_bind; [eapply rr_get, Hp|]. intros pi pi' Pi.
    go (Forall2 (rel true)). { now apply rr_set. } change (e_coef (with_scr e s')) with (e_coef e). eapply rr_bind; [apply rr_same|]. intros c ? <-.
    eapply rr_bind; [eapply rr_get, S1|]. intros ? ? ?. eapply rr_bind; [eapply rr_get, S3|]. intros ? ? ?. eapply rr_bind; [eapply rr_get, S4|]. intros ? ? ?.
    eapply rr_bind; [eapply rr_get, S5|]. intros ? ? ?. eapply rr_bind; [eapply rr_get, S6|]. intros ? ? ?. eapply rr_bind; [eapply rr_get, S2|]. intros ? ? ?.
    eapply rr_bind; [eapply rr_get, S7|]. intros ? ? ?. go (Forall2 (rel true)). { apply rr_set; [assumption|]. now apply (C103_point e E). } apply rr_ok. auto. }
  intros [u v] [u' v'] [U V]. apply rr_ok. cbn [fst snd] in *. split; [assumption|]. split; [assumption|]. exists s1. split; [reflexivity|].
  exists s1'. split; [reflexivity|]. repeat (split; [assumption|]). assumption.
Qed.

Lemma opp_axpy a a' c k k' : opp a a' -> opp k k' -> opp (a + c * k) (a' + c * k').
Proof. intros. apply (rel_add true); [assumption|]. apply (rel_mul false true); auto using rel_refl. Qed.
Lemma rr_each n h h' o o' : (forall i, rr opp (h i) (h' i)) -> flip o o' -> rr flip (set_each n h o) (set_each n h' o').
Proof. intros Hh O. unfold set_each. apply rr_for; [|assumption]. intros i u w Huw. eapply rr_bind; [apply Hh|]. intros. now apply rr_set. Qed.
Lemma rr_axpy n c k n' k' i : flip n n' -> flip k k' -> rr opp (axpy_at n c k i) (axpy_at n' c k' i).
Proof. intros. unfold axpy_at. do 2 (eapply rr_bind; [eapply rr_get; eassumption|]; intros ? ? ?). apply rr_ok. now apply opp_axpy. Qed.
Lemma rr_acc n c k k' x x' : flip k k' -> flip x x' -> rr flip (acc_each n c k x) (acc_each n c k' x').
Proof.
  intros. unfold acc_each. apply rr_for; [|assumption]. intros i u w Huw. eapply rr_bind; [eapply rr_get, Huw|]. intros ? ? ?.
  eapply rr_bind; [eapply rr_get; eassumption|]. intros ? ? ?. apply rr_set; [assumption|]. now apply opp_axpy.
Qed.
Lemma rr_level1 n dt lv f f' : twin f f' -> rr twin (level1 n dt lv f) (level1 n dt lv f').
Proof.
  intros (Z & A & B & C & D). unfold level1.
  repeat match goal with |- context [if (?x =? ?y)%Z then _ else _] => destruct (x =? y)%Z end.
  - go (Forall2 (rel true)). { apply rr_each; [intros; now apply rr_get|assumption]. } apply rr_ok. now repeat (split; [assumption|]).
  - go (Forall2 (rel true)). { apply rr_each; [intros; now apply rr_axpy|assumption]. } go (Forall2 (rel true)). { apply rr_each; [intros; now apply rr_axpy|assumption]. }
    apply rr_ok. now repeat (split; [assumption|]).
  - go (Forall2 (rel true)). { apply rr_each; [intros; now apply rr_axpy|assumption]. } go (Forall2 (rel true)). { now apply rr_acc. } apply rr_ok. now repeat (split; [assumption|]).
  - go (Forall2 (rel true)). { apply rr_each; [intros; now apply rr_axpy|assumption]. } go (Forall2 (rel true)). { now apply rr_acc. } apply rr_ok. now repeat (split; [assumption|]).
  - go (Forall2 (rel true)). { now apply rr_acc. } apply rr_ok. now repeat (split; [assumption|]).
  - apply rr_ok. now repeat (split; [assumption|]).
Qed.
Lemma rr_set_level e e' lv f f' p p' : twin_eom e e' -> twin f f' -> twin p p' ->
  rr (fun a b => twin (fst a) (fst b) /\ twin (snd a) (snd b)) (set_level e lv f p) (set_level e' lv f' p').
Proof.
  intros (s & -> & _) F P. unfold set_level. cbn [e_n e_dt with_scr]. eapply rr_bind; [apply rr_level1, F|]. intros ? ? ?.
  eapply rr_bind; [apply rr_level1, P|]. intros ? ? ?. apply rr_ok. auto.
Qed.
(** the equations (not the work arrays) of a state are those of e *)
Definition eqs_of (e : eom FL) (u : field FL * field FL * eom FL) : Prop := exists s, snd u = with_scr e s.
Definition f_of (u : field FL * field FL * eom FL) : field FL := fst (fst u).
Lemma rr_stage e lv u u' : even_theory e -> eqs_of e u -> twins u u' -> all_calm e (fl_l (f_of u)) ->
  rr (fun a b => twins a b /\ eqs_of e a) (rk_stage g lv u) (rk_stage g lv u').
Proof.
  destruct u as [[f p] z], u' as [[f' p'] z']. intros E (s & Es) (F & P & Z) C. cbn [snd f_of fst] in *. subst z. unfold rk_stage.
  pose proof F as (F0 & F1 & F2 & F3 & F4). pose proof P as (P0 & P1 & P2 & P3 & P4).
  eapply rr_bind; [apply (rr_set_k (with_scr e s) z' (fl_l f) (fl_l f') (fl_l p) (fl_l p')); assumption|]. intros [[a b] z] [[a' b'] z'0] (A & B & s1 & -> & Z'). cbn [fst snd] in *.
  assert (Z2 : twin_eom (with_scr e s1) z'0) by exact Z'.
  eapply rr_bind; [refine (rr_set_level _ _ _ _ _ _ _ Z2 _ _); repeat (split; [assumption|]); assumption|]. intros [x y] [x' y'] [X Y]. apply rr_ok. cbn [fst snd] in *.
  split; [exact (conj X (conj Y Z2))|]. now exists s1.
Qed.

(** the state [r] returns, if it returns one, satisfies Q *)
Definition whenever {A} (r : res A) (Q : A -> Prop) : Prop := forall a, r = Ok a -> Q a.
(** the four fields the right-hand side is evaluated at during a time step are calm *)
Definition calm_step (u : field FL * field FL * eom FL) : Prop :=
  let '(f, p, e) := u in
  whenever (grid_filter g (fl_n f)) (fun fn => whenever (grid_filter g (fl_n p)) (fun pn =>
  whenever (set_level e 1 (with_n f fn) (with_n p pn)) (fun s1 => all_calm e (fl_l (fst s1)) /\
  whenever (rk_stage g 2 (fst s1, snd s1, e)) (fun s2 => all_calm e (fl_l (f_of s2)) /\
  whenever (rk_stage g 3 s2) (fun s3 => all_calm e (fl_l (f_of s3)) /\
  whenever (rk_stage g 4 s3) (fun s4 => all_calm e (fl_l (f_of s4)))))))).

Lemma rr_bind_eq {A B} (R : A -> A -> Prop) (Q : B -> B -> Prop) r r' k k' : rr R r r' -> (forall a b, r = Ok a -> R a b -> rr Q (k a) (k' b)) -> rr Q (bind r k) (bind r' k').
Proof. intros H K x E. destruct r; try discriminate E. destruct (H _ eq_refl) as (b & -> & Hb). exact (K _ _ eq_refl Hb _ E). Qed.

(** one time step *)
Theorem C103_time_step f f' p p' e e' : even_theory e -> twin f f' -> twin p p' -> twin_eom e e' -> calm_step (f, p, e) ->
  forall f1 p1 e1, time_step g e f p = Ok (f1, p1, e1) ->
  exists f1' p1' e1', time_step g e' f' p' = Ok (f1', p1', e1') /\ twin f1 f1' /\ twin p1 p1' /\ twin_eom e1 e1' /\ exists s, e1 = with_scr e s.
Proof.
  intros E F P Z C f1 p1 e1 T. assert (G : rr (fun a b => twins a b /\ eqs_of e a) (time_step g e f p) (time_step g e' f' p')).
  2:{ destruct (G _ T) as ([[f1' p1'] e1'] & T' & (A & B & D) & (s & S)). exists f1', p1', e1'. cbn [snd] in S. eauto 10. }
  clear T f1 p1 e1. pose proof F as (F0 & F1 & F2 & F3 & F4). pose proof P as (P0 & P1 & P2 & P3 & P4).
  unfold time_step. pose proof Z as (s0 & Ez & _). assert (En : e_n e' = e_n e) by now rewrite Ez. rewrite En, F0, P0.
  do 2 (eapply rr_bind; [apply rr_same|]; intros _ _ _).
  eapply rr_bind_eq; [apply (rr_filter opp eqv keeps_); eassumption|]. intros fn fn' Q1 Fn.
  eapply rr_bind_eq; [apply (rr_filter opp eqv keeps_); eassumption|]. intros pn pn' Q2 Pn.
  eapply rr_bind_eq; [refine (rr_set_level _ _ _ _ _ _ _ Z _ _); repeat (split; [assumption|]); assumption|]. intros [a b] [a' b'] Q3 [A B]. cbn [fst snd] in *.
  destruct (C _ Q1 _ Q2 _ Q3) as (C1 & C2). cbn [fst snd] in *.
  assert (S0 : eqs_of e (a, b, e)) by (exists (e_scr e); now destruct e).
  eapply rr_bind_eq; [apply rr_stage; [exact E|exact S0|now split|exact C1]|]. intros s2 s2' Q4 [T2 S2]. destruct (C2 _ Q4) as (C3 & C4).
  eapply rr_bind_eq; [apply rr_stage; eassumption|]. intros s3 s3' Q5 [T3 S3]. destruct (C4 _ Q5) as (C5 & C6).
  eapply rr_bind_eq; [apply rr_stage; eassumption|]. intros s4 s4' Q6 [T4 S4]. apply rr_stage; auto.
Qed.

(** ** any number of steps of the main loop *)
Lemma rr_shift f f' : twin f f' -> rr twin (shift f) (shift f').
Proof.
  intros (Z & A & B & C & D). unfold shift. rewrite Z. go (Forall2 (rel true)).
  { apply rr_for; [|assumption]. intros i u w Huw. eapply rr_bind; [eapply rr_get, C|]. intros. now apply rr_set. }
  apply rr_ok. now repeat (split; [assumption|]).
Qed.
Definition one_iter (u : field FL * field FL * eom FL) : res (field FL * field FL * eom FL) :=
  let '(f, p, e) := u in let! (f, p, e) := time_step g e f p in let! f := shift f in let! p := shift p in Ok (f, p, e).
Fixpoint run (k : nat) (u : field FL * field FL * eom FL) : res (field FL * field FL * eom FL) :=
  match k with O => Ok u | S k => let! u := one_iter u in run k u end.
Fixpoint calm_run (k : nat) (u : field FL * field FL * eom FL) : Prop :=
  match k with O => True | S k => calm_step u /\ whenever (one_iter u) (calm_run k) end.

Theorem C103_sign_symmetry k : forall f f' p p' e e', even_theory e -> twin f f' -> twin p p' -> twin_eom e e' -> calm_run k (f, p, e) ->
  forall f1 p1 e1, run k (f, p, e) = Ok (f1, p1, e1) ->
  exists f1' p1' e1', run k (f', p', e') = Ok (f1', p1', e1') /\ twin f1 f1' /\ twin p1 p1' /\ twin_eom e1 e1' /\ exists s, e1 = with_scr e s.
Proof.
  induction k as [|k IH]; intros f f' p p' e e' E F P Z C f1 p1 e1 T.
  - injection T as <- <- <-. exists f', p', e'. split; [reflexivity|]. repeat (split; [assumption|]). exists (e_scr e). now destruct e.
  - destruct C as (C1 & C2). cbn [run] in *. destruct (one_iter (f, p, e)) as [[[f2 p2] e2]| | | |] eqn:O; try discriminate T. specialize (C2 _ eq_refl).
    cbn [one_iter] in O. destruct (time_step g e f p) as [[[f3 p3] e3]| | | |] eqn:T3; try discriminate O.
    destruct (C103_time_step _ _ _ _ _ _ E F P Z C1 _ _ _ T3) as (f3' & p3' & e3' & T3' & F3 & P3 & Z3 & s & ->).
    cbn [bind] in O. destruct (shift f3) as [f4| | | |] eqn:S1; try discriminate O. cbn [bind] in O.
    destruct (shift p3) as [p4| | | |] eqn:S2; try discriminate O. injection O as <- <- <-.
    destruct (rr_shift _ _ F3 _ S1) as (f4' & S1' & F4). destruct (rr_shift _ _ P3 _ S2) as (p4' & S2' & P4).
    destruct (IH f4 f4' p4 p4' (with_scr e s) e3' E F4 P4 Z3 C2 f1 p1 e1 T) as (f1' & p1' & e1' & R & A & B & D & s2 & Es).
    exists f1', p1', e1'. cbn [one_iter]. rewrite T3'. cbn [bind]. rewrite S1'. cbn [bind]. rewrite S2'. cbn [bind]. repeat (split; [auto|]). exists s2. exact Es.
Qed.

(** ** the diagnostics do not see the sign *)
Theorem C103_rho f f' p p' r r' e e' : even_theory e -> twin_eom e e' -> all_calm e f -> flip f f' -> flip p p' -> same r r' ->
  forall rho e1, set_rho g e f p r = Ok (rho, e1) -> exists rho' e1', set_rho g e' f' p' r' = Ok (rho', e1') /\ same rho rho' /\ twin_eom e1 e1'.
Proof.
  intros E (s' & -> & S) C Hf Hp Hr rho e1 T. pose proof (calm_F2 _ _ _ C Hf) as HC.
  assert (G : rr (fun a b => same (fst a) (fst b) /\ twin_eom (snd a) (snd b)) (set_rho g e f p r) (set_rho g (with_scr e s') f' p' r')).
  2:{ destruct (G _ T) as ([x y] & ? & ? & ?). exists x, y. auto. }
  clear T rho e1. destruct S as (S1 & S2 & S3 & S4 & S5 & S6 & S7). unfold set_rho. cbv zeta. change (e_n (with_scr e s')) with (e_n e). do 3 assertion.
  cbn [e_scr with_scr e_coef]. eapply rr_bind; [apply (rr_partial_r opp eqv keeps_); eassumption|]. intros ? ? ?.
  eapply rr_bind; [apply (rr_partial_phi opp eqv keeps_); eassumption|]. intros ? ? ?.
  eapply rr_bind; [apply (rr_set_sphereX opp eqv keeps_); [assumption|exact I|eassumption|eassumption]|]. intros ? ? ?.
  go (Forall2 (rel false)).
  { apply rr_for; [|assumption]. intros i u w Huw. eapply rr_bind; [eapply rr_get, HC|]. intros fi fi' [Fi Ci]. eapply rr_bind; [apply rr_same|]. intros c ? <-.
    eapply rr_bind; [eapply rr_get, Hp|]. intros ? ? ?. do 3 (eapply rr_bind; [eapply rr_get; eassumption|]; intros ? ? ?). apply rr_set; [assumption|].
    now apply (C103_rho_point e E). }
  apply rr_ok. cbn [fst snd]. split; [assumption|]. eexists. split; [reflexivity|]. now repeat (split; [assumption|]).
Qed.

Lemma rr_reduce step step' sched i : (forall j a b, eqv a b -> rr eqv (step j a) (step' j b)) -> rr eqv (reduce step sched i) (reduce step' sched i).
Proof.
  intros H. unfold reduce. assert (G : rr eqv (Ok i) (Ok i)) by (apply rr_ok, rel_refl). revert G. generalize (Ok i) at 1 3 as x. generalize (Ok i) as y.
  induction sched as [|its l IH]; intros y x G; cbn [fold_left]; [exact G|]. apply IH. eapply rr_bind; [exact G|]. intros a b Hab.
  eapply (rr_bind eqv).
  { unfold thread_sum. assert (G2 : rr eqv (Ok f0) (Ok f0)) by (apply rr_ok, rel_refl). revert G2. generalize (Ok (f0 (A := b64_here))) at 1 3 as x2. generalize (Ok (f0 (A := b64_here))) as y2.
    clear - H. induction its as [|j its IH]; intros y x G; cbn [fold_left]; [exact G|]. apply IH. eapply rr_bind; [exact G|]. auto. }
  intros ? ? ?. apply rr_ok. now apply (rel_add false).
Qed.
Lemma eqv_sqrt x y : eqv x y -> eqv (fpowh x) (fpowh y).
Proof.
  destruct x as [a|a| |a m h], y as [b|b| |b m' h']; cbn [rel]; try tauto; intros H; repeat match goal with H : _ /\ _ |- _ => destruct H end; subst; try exact I; try apply rel_refl;
    rewrite ?xorb_false_l; apply rel_refl.
Qed.
Theorem C103_residual sched dt f f' q q' p p' r : flip f f' -> flip q q' -> flip p p' -> norm_indep_res g sched dt f q p = Ok r ->
  exists r', norm_indep_res g sched dt f' q' p' = Ok r' /\ eqv r r'.
Proof.
  intros Hf Hq Hp. enough (G : rr eqv (norm_indep_res g sched dt f q p) (norm_indep_res g sched dt f' q' p')) by exact (G r).
  unfold norm_indep_res. do 3 assertion. go (rel false).
  { apply rr_reduce. intros j a b Hab. unfold nir_step. do 3 (eapply rr_bind; [eapply rr_get; eassumption|]; intros ? ? ?). apply rr_ok.
    apply (rel_add false); [assumption|]. apply (rel_pow true _ _ 2). apply (rel_sub true); [assumption|].
    apply (rel_div true false); [now apply (rel_sub true)|apply rel_refl|now left]. }
  apply rr_ok. apply eqv_sqrt. apply (rel_div false false); [assumption|apply rel_refl|now left].
Qed.
Theorem C103_variation sched f f' r : flip f f' -> total_variation g sched f = Ok r -> exists r', total_variation g sched f' = Ok r' /\ eqv r r'.
Proof.
  intros Hf. enough (G : rr eqv (total_variation g sched f) (total_variation g sched f')) by exact (G r).
  unfold total_variation. assertion. go (rel false).
  { apply rr_reduce. intros j a b Hab. unfold tv_step. apply rr_for; [|assumption]. intros it u w Huw. apply rr_for; [|assumption]. intros ip u' w' Huw'.
    do 4 (eapply rr_bind; [eapply rr_get; eassumption|]; intros ? ? ?). apply rr_ok. apply (rel_add false); [assumption|]. apply eqv_sqrt.
    repeat apply (rel_add false); apply (rel_pow true _ _ 2); now apply (rel_sub true). }
  apply rr_ok. apply (rel_div false false); [assumption|apply rel_refl|now left].
Qed.

(** as a user starts it: a new equation object, two runs whose initial data differ in sign only *)
Theorem C103_negated_data par e k n F P name name' f1 p1 e1 : Eom_make g par = Ok e ->
  zero (pr_km1 par) -> zero (pr_k1 par) -> zero (pr_V3 par) ->
  let start s := (Fld name (map s F) (map s F) (map s F) (map s F) n, Fld name' (map s P) (map s P) (map s P) (map s P) n, e) in
  calm_run k (start (fun x => x)) -> run k (start (fun x => x)) = Ok (f1, p1, e1) ->
  exists f1' p1' e1', run k (start SFopp) = Ok (f1', p1', e1') /\ flip (fl_n f1) (fl_n f1') /\ flip (fl_n p1) (fl_n p1') /\
    flip (fl_np1 f1) (fl_np1 f1') /\ flip (fl_np1 p1) (fl_np1 p1').
Proof.
  intros M Z1 Z2 Z3 start C R. unfold start in *.
  assert (E : even_theory e /\ twin_eom e e).
  { unfold Eom_make in M. cbv zeta in M. destruct (for_ _ _ _ _) as [cs| | | |]; try discriminate M. injection M as <-. split; [repeat split; assumption|].
    exists (Scr (vec (g_n3 g) f0) (vec (g_n3 g) f0) (vec (g_n3 g) f0) (vec (g_n3 g) f0) (vec (g_n3 g) f0) (vec (g_n3 g) f0) (vec (g_n3 g) f0)).
    split; [reflexivity|]. cbn [e_scr]. repeat split; now apply F2_repeat. }
  destruct E as [E T].
  assert (Q : forall l, flip (map (fun x => x) l) (map SFopp l)). { intros l. induction l; cbn [map]; constructor; auto using rel_opp. }
  destruct (C103_sign_symmetry k (Fld name (map (fun x => x) F) (map (fun x => x) F) (map (fun x => x) F) (map (fun x => x) F) n)
    (Fld name (map SFopp F) (map SFopp F) (map SFopp F) (map SFopp F) n)
    (Fld name' (map (fun x => x) P) (map (fun x => x) P) (map (fun x => x) P) (map (fun x => x) P) n)
    (Fld name' (map SFopp P) (map SFopp P) (map SFopp P) (map SFopp P) n) e e E) with (f1 := f1) (p1 := p1) (e1 := e1) as (f1' & p1' & e1' & R' & A & B & _);
    [repeat split; apply Q|repeat split; apply Q|exact T|exact C|exact R|].
  exists f1', p1', e1'. split; [exact R'|]. destruct A as (_ & A1 & _ & A2 & _), B as (_ & B1 & _ & B2 & _). auto.
Qed.
End C103.
