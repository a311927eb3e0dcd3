(** * Lemmas for C88. *)
From Coq Require Import Ascii String Lia.
From Verif Require Import Base BaseLemmas ForList Arith MSphere MGrid MParams MField MEom MInit MIo MMain MSim MLaunch LaunchSpec PText PropIo PropDriver.
Local Open Scope list_scope.

Section Names.
Context {F : Type} {AF : Arith F}.
Lemma level1_name n dt l (f f' : field F) : level1 n dt l f = Ok f' -> fl_name f' = fl_name f.
Proof.
  unfold level1. intros H. repeat match type of H with context [if ?c then _ else _] => destruct c end; repeat (inv_bind H); injection H as <-; reflexivity.
Qed.
Lemma set_level_name (e : eom F) l f p f' p' : set_level e l f p = Ok (f', p') -> fl_name f' = fl_name f /\ fl_name p' = fl_name p.
Proof. unfold set_level. intros H. inv_bind H. inv_bind H. injection H as <- <-. split; eapply level1_name; eauto. Qed.
Lemma rk_stage_name g l (f p : field F) e f' p' e' : rk_stage g l (f, p, e) = Ok (f', p', e') -> fl_name f' = fl_name f.
Proof.
  unfold rk_stage. intros H. inv_bind H. destruct x as [[fk pk] e1]. inv_bind H. destruct x as [f1 p1]. injection H as <- <- <-.
  apply set_level_name in E0. apply E0.
Qed.
Lemma time_step_name g e (f p : field F) f' p' e' : time_step g e f p = Ok (f', p', e') -> fl_name f' = fl_name f.
Proof.
  unfold time_step. intros H. inv_bind H. inv_bind H. inv_bind H. inv_bind H. inv_bind H. destruct x3 as [f1 p1].
  inv_bind H. destruct x3 as [[f2 p2] e2]. inv_bind H. destruct x3 as [[f3 p3] e3]. inv_bind H. destruct x3 as [[f4 p4] e4].
  apply set_level_name in E3. destruct E3 as [E3 _]. apply rk_stage_name in E4, E5, E6, H. cbn in E3. congruence.
Qed.
Lemma shift_name (f f' : field F) : shift f = Ok f' -> fl_name f' = fl_name f.
Proof. unfold shift. intros H. inv_bind H. injection H as <-. reflexivity. Qed.

(** *** files are only appended to, and only a run's own *)
Definition grows (dir : text) (fs fs' : fsys) : Prop :=
  (forall n, fs_can fs' n = fs_can fs n) /\
  forall n, fs_file fs' n = fs_file fs n \/
    (fs_can fs n = true /\ (exists k, n = name_kind "RPsl" (dir ++ txt "/f") k \/ n = name_kind "RPsl" (dir ++ txt "/rho") k) /\ exists t, fs_file fs' n = Some t).
Lemma grows_refl dir fs : grows dir fs fs. Proof. split; auto. Qed.
Lemma grows_trans dir a b c : grows dir a b -> grows dir b c -> grows dir a c.
Proof.
  intros [A1 A2] [B1 B2]. split; [intros; now rewrite B1|]. intros n. destruct (B2 n) as [E|(C & K & T)].
  - rewrite E. apply A2.
  - right. rewrite A1 in C. auto.
Qed.
Variable fmt : F -> text.
Lemma write_grows dir g nm k v fs fs' : (nm = dir ++ txt "/f" \/ nm = dir ++ txt "/rho") ->
  write_R_psl fmt fs g nm true k v = Ok fs' -> grows dir fs fs'.
Proof.
  intros Hn H. unfold write_R_psl in H. inv_bind H. destruct (fs_can fs _) eqn:C; [|injection H as <-; apply grows_refl].
  inv_bind H. injection H as <-. split; [reflexivity|]. intros n. cbn [fs_append fs_file]. unfold text_eqb.
  destruct (list_eq_dec ascii_dec n _) as [->|]; [|now left]. right. split; [exact C|]. split; [|eauto].
  exists k. destruct Hn as [->| ->]; auto.
Qed.
Lemma save_grows g dir t r tv k st st' : fl_name (ms_f st) = txt "f" -> save_state fmt g dir t r tv k st = Ok st' ->
  grows dir (ms_fs st) (ms_fs st') /\ ms_f st' = ms_f st.
Proof.
  intros Hf H. unfold save_state in H. inv_bind H. destruct x as [rho e]. inv_bind H. inv_bind H. injection H as <-. cbn [ms_fs ms_f].
  split; [|reflexivity]. rewrite Hf in E0. eapply grows_trans; [eapply write_grows; [|exact E0]; now left|eapply write_grows; [|exact E1]; now right].
Qed.
Variable stod_ : text -> option F.
Variables (sch_res sch_tv : nat -> list (list nat)).
Lemma iter_grows g par dir i st st' : fl_name (ms_f st) = txt "f" -> main_iter fmt sch_res sch_tv g par dir i st = Ok st' ->
  grows dir (ms_fs st) (ms_fs st') /\ fl_name (ms_f st') = txt "f".
Proof.
  intros Hf H. unfold main_iter in H. inv_bind H. destruct x as [[f p] e]. apply time_step_name in E.
  inv_bind H. inv_bind H. inv_bind H. injection H as <-. cbn [ms_fs ms_f]. apply shift_name in E1.
  enough (K : grows dir (ms_fs st) (ms_fs x) /\ fl_name (ms_f x) = txt "f") by (destruct K; split; congruence).
  destruct (Nat.eqb _ 0); [discriminate|]. destruct (Nat.eqb _ 0).
  - inv_bind E0. inv_bind E0. apply save_grows in E0; cbn [ms_f ms_fs] in *; [|congruence]. destruct E0 as [A ->]. split; auto. congruence.
  - injection E0 as <-. cbn [ms_fs ms_f]. split; [apply grows_refl|congruence].
Qed.
Lemma main_grows b lib file dir fs st : main fmt stod_ sch_res sch_tv b lib file dir fs = Ok st -> grows dir fs (ms_fs st).
Proof.
  unfold main. intros H. inv_bind H. destruct x as [[par g] st0].
  assert (I0 : grows dir fs (ms_fs st0) /\ fl_name (ms_f st0) = txt "f").
  { unfold main_init in E. inv_bind E. cbv zeta in E. inv_bind E. inv_bind E. inv_bind E. destruct x2 as [fn pn]. inv_bind E. destruct x2 as [fp pp].
    inv_bind E. inv_bind E. inv_bind E. injection E as _ _ <-. apply save_grows in E7; [|reflexivity]. destruct E7 as [A ->]. split; [exact A|reflexivity]. }
  assert (G : forall l, forall st1 st2, for_list l (main_iter fmt sch_res sch_tv g par dir) st1 = Ok st2 -> grows dir fs (ms_fs st1) /\ fl_name (ms_f st1) = txt "f" ->
    grows dir fs (ms_fs st2) /\ fl_name (ms_f st2) = txt "f").
  { induction l as [|i l IH]; intros st1 st2 HL [A B].
    - injection HL as <-. auto.
    - cbn [for_list] in HL. inv_bind HL. apply iter_grows in E0; auto. destruct E0 as [A' B']. eapply IH; eauto. split; auto. eapply grows_trans; eauto. }
  rewrite for_as_list in H. exact (proj1 (G _ _ _ H I0)).
Qed.
End Names.

(** *** paths *)
Lemma path_eqb_spec a b : reflect (a = b) (path_eqb a b).
Proof. unfold path_eqb. destruct (list_eq_dec (list_eq_dec ascii_dec) a b); constructor; auto. Qed.
Lemma text_eqb_spec a b : reflect (a = b) (text_eqb a b).
Proof. unfold text_eqb. destruct (list_eq_dec ascii_dec a b); constructor; auto. Qed.
Lemma below_app P q : below P (P ++ q) = Some q.
Proof. induction P as [|c P IH]; cbn; auto. destruct (text_eqb_spec c c); congruence. Qed.
Lemma below_inv P p q : below P p = Some q -> p = P ++ q.
Proof.
  revert p. induction P as [|c P IH]; cbn; intros p H; [congruence|]. destruct p as [|x p]; [discriminate|].
  destruct (text_eqb_spec c x) as [->|]; [|discriminate]. now rewrite (IH p).
Qed.
Definition no_slash (t : text) : Prop := ~ In "/"%char t.
Lemma split_plain cur t : no_slash t -> split_slash cur t = [cur ++ t].
Proof.
  revert cur. induction t as [|c t IH]; intros cur H; cbn; [now rewrite app_nil_r|].
  destruct (Ascii.eqb_spec c "/"%char) as [->|]; [exfalso; apply H; now left|]. rewrite IH; [now rewrite <- app_assoc|]. intros K. apply H. now right.
Qed.
Lemma split_app cur a t : no_slash a -> split_slash cur (a ++ "/"%char :: t) = (cur ++ a) :: split_slash [] t.
Proof.
  revert cur. induction a as [|c a IH]; intros cur H; cbn; [now rewrite app_nil_r|].
  destruct (Ascii.eqb_spec c "/"%char) as [->|]; [exfalso; apply H; now left|]. rewrite IH; [now rewrite <- app_assoc|]. intros K. apply H. now right.
Qed.
Lemma comps_dot x : no_slash x -> x <> [] -> x <> txt "." -> comps (txt "./" ++ x) = [x].
Proof.
  intros H N1 N2. unfold comps. change (txt "./" ++ x) with (txt "." ++ "/"%char :: x). rewrite split_app by (intros [K|[]]; discriminate K).
  rewrite split_plain by auto. cbn [app filter]. change (text_eqb (txt ".") (txt ".")) with true. rewrite Bool.orb_true_r. cbn [negb].
  destruct (text_eqb_spec x []); [contradiction|]. destruct (text_eqb_spec x (txt ".")); [contradiction|]. reflexivity.
Qed.
Lemma dec_no_slash z : no_slash (dec z).
Proof. intros K. apply dec_chars in K. destruct K as [K|K]; [|discriminate]. destruct K as (n & Hn & K). apply (f_equal nat_of_ascii) in K. rewrite nat_ascii_embedding in K by lia. cbn in K. lia. Qed.

Lemma f_csv_comps k : comps (name_kind "RPsl" (txt "./f") k) = [f_csv k] /\ comps (txt "./" ++ f_csv k) = [f_csv k] /\ name_kind "RPsl" (txt "./f") k = txt "./" ++ f_csv k.
Proof.
  assert (E : name_kind "RPsl" (txt "./f") k = txt "./" ++ f_csv k) by (unfold name_kind, f_csv; reflexivity).
  assert (C : comps (txt "./" ++ f_csv k) = [f_csv k]).
  { apply comps_dot; [|intros K; discriminate K..]. unfold no_slash, f_csv. rewrite !in_app_iff. intros [K|[K|K]].
    - vm_compute in K. repeat destruct K as [K|K]; try discriminate K; auto.
    - now apply dec_no_slash in K.
    - vm_compute in K. repeat destruct K as [K|K]; try discriminate K; auto. }
  rewrite E. auto.
Qed.
Lemma rho_csv_comps k : comps (name_kind "RPsl" (txt "./rho") k) = [rho_csv k] /\ comps (txt "./" ++ rho_csv k) = [rho_csv k] /\ name_kind "RPsl" (txt "./rho") k = txt "./" ++ rho_csv k.
Proof.
  assert (E : name_kind "RPsl" (txt "./rho") k = txt "./" ++ rho_csv k) by (unfold name_kind, rho_csv; reflexivity).
  assert (C : comps (txt "./" ++ rho_csv k) = [rho_csv k]).
  { apply comps_dot; [|intros K; discriminate K..]. unfold no_slash, rho_csv. rewrite !in_app_iff. intros [K|[K|K]].
    - vm_compute in K. repeat destruct K as [K|K]; try discriminate K; auto.
    - now apply dec_no_slash in K.
    - vm_compute in K. repeat destruct K as [K|K]; try discriminate K; auto. }
  rewrite E. auto.
Qed.

(** *** disks *)
Lemma fresh_below d P q : sound d -> on_disk d P = false -> on_disk d (P ++ q) = false.
Proof.
  intros (_ & S & _) H. induction q as [|c q IH] using rev_ind; [now rewrite app_nil_r|]. rewrite app_assoc.
  destruct (on_disk d ((P ++ q) ++ [c])) eqn:E; auto. apply S in E. unfold on_disk in IH. rewrite E in IH. discriminate.
Qed.
Lemma on_disk_root d : sound d -> on_disk d [] = true.
Proof. intros (R & _). unfold on_disk. now rewrite R. Qed.
(** the directories on the way to P *)
Definition made (d d' : disk) (P : path) : Prop :=
  (forall p, d_file d' p = d_file d p) /\ (forall p, d_dir d p = true -> d_dir d' p = true) /\
  (forall p, d_dir d' p = true -> d_dir d p = true \/ exists q, P = p ++ q).
Lemma made_refl d P : made d d P. Proof. repeat split; auto. Qed.
Section Mk.
Variable perm : path -> bool.
Lemma mkdir_ok d P d' ok : sound d -> mkdir perm d P = (d', ok) ->
  sound d' /\ made d d' P /\ (on_disk d P = true -> d' = d /\ ok = false) /\ (ok = true -> on_disk d P = false /\ d_dir d' P = true).
Proof.
  intros Hs H. unfold mkdir in H. destruct (on_disk d P) eqn:E; [injection H as <- <-; split; auto; split; [apply made_refl|]; split; auto; discriminate|].
  destruct (d_dir d (removelast P) && perm P)%bool eqn:C; [|injection H as <- <-; split; auto; split; [apply made_refl|]; split; intros; discriminate].
  injection H as <- <-. apply andb_prop in C. destruct C as [C _].
  assert (NP : P <> []) by (intros ->; rewrite on_disk_root in E; [discriminate|auto]).
  assert (AD : forall q, d_dir (add_dir d P) q = true <-> q = P \/ d_dir d q = true).
  { intros q. cbn. destruct (path_eqb_spec q P); cbn; intuition. }
  unfold on_disk in E. apply Bool.orb_false_iff in E. destruct E as [E1 E2]. pose proof Hs as (R & S & X).
  split; [|split; [|split; [discriminate|]]].
  - split; [apply AD; auto|]. split.
    + intros p c H. apply AD. unfold on_disk in H. apply Bool.orb_prop in H. destruct H as [H|H].
      * apply AD in H. destruct H as [<-|H]; [right; now rewrite removelast_last in C|]. right. apply S with c. unfold on_disk. now rewrite H.
      * right. apply S with c. unfold on_disk. cbn in H. rewrite H. now rewrite Bool.orb_true_r.
    + intros p t H. cbn in H. destruct (d_dir (add_dir d P) p) eqn:D; auto. apply AD in D. destruct D as [->|D]; [now rewrite H in E2|]. now rewrite (X p t H) in D.
  - split; [reflexivity|]. split; intros p Hp; [apply AD; auto|]. apply AD in Hp. destruct Hp as [->|Hp]; [right; exists []; now rewrite app_nil_r|auto].
  - intros _. split; [reflexivity|apply AD; auto].
Qed.
Lemma mkdirs_up_ok up : forall d d' ok, sound d -> mkdirs_up perm d up = (d', ok) ->
  sound d' /\ made d d' (rev up) /\ (on_disk d (rev up) = true -> d' = d /\ ok = false) /\ (ok = true -> on_disk d (rev up) = false /\ d_dir d' (rev up) = true).
Proof.
  induction up as [|c up IH]; intros d d' ok Hs H; [now apply mkdir_ok|]. cbn [mkdirs_up] in H. cbn [rev] in H |- *.
  destruct (match up with [] => (d, true) | _ => if on_disk d (rev up) then (d, true) else mkdirs_up perm d up end) as [d1 ok1] eqn:E.
  assert (K : sound d1 /\ made d d1 (rev up) /\ (on_disk d (rev up) = true -> d1 = d /\ ok1 = true)).
  { destruct up as [|c' up']; [injection E as <- <-; split; auto; split; [apply made_refl|auto]|].
    destruct (on_disk d (rev (c' :: up'))) eqn:O; [injection E as <- <-; split; auto; split; [apply made_refl|auto]|].
    apply IH in E; auto. destruct E as (A & B & _). split; auto. split; auto. discriminate. }
  destruct K as (S1 & (M1 & M2 & M3) & P1).
  assert (UP : on_disk d (rev up ++ [c]) = true -> d1 = d /\ ok1 = true).
  { intros O. apply P1. destruct Hs as (_ & S & _). unfold on_disk. now rewrite (S _ _ O). }
  destruct ok1.
  - apply mkdir_ok in H; auto. destruct H as (S2 & (N1 & N2 & N3) & O2 & K2). split; auto. split; [|split].
    + split; [intros; now rewrite N1|]. split; [auto|]. intros p Hp. apply N3 in Hp. destruct Hp as [Hp|Hp]; [|auto]. apply M3 in Hp. destruct Hp as [Hp|(q & Hp)]; auto.
      right. rewrite Hp. exists (q ++ [c]). now rewrite app_assoc.
    + intros O. destruct (UP O) as [-> _]. auto.
    + intros Hk. destruct (K2 Hk) as [K3 K4]. split; auto. destruct (on_disk d (rev up ++ [c])) eqn:O; auto. destruct (UP eq_refl) as [-> _]. congruence.
  - injection H as <- <-. split; auto. split; [|split; [|discriminate]].
    + split; auto. split; auto. intros p Hp. apply M3 in Hp. destruct Hp as [Hp|(q & Hp)]; auto. right. rewrite Hp. exists (q ++ [c]). now rewrite app_assoc.
    + intros O. destruct (UP O) as [_ X]. discriminate.
Qed.
Lemma makedirs_ok d P d' ok : sound d -> makedirs perm d P = (d', ok) ->
  sound d' /\ made d d' P /\ (on_disk d P = true -> d' = d /\ ok = false) /\ (ok = true -> on_disk d P = false /\ d_dir d' P = true).
Proof. intros Hs H. apply mkdirs_up_ok in H; auto. now rewrite rev_involutive in H. Qed.
End Mk.
Lemma made_fresh d d' P q : sound d -> made d d' P -> on_disk d P = false -> q <> [] -> on_disk d' (P ++ q) = false.
Proof.
  intros Hs (M1 & M2 & M3) H Hq. pose proof (fresh_below d P q Hs H) as B. unfold on_disk in *. apply Bool.orb_false_iff in B. destruct B as [B1 B2].
  rewrite M1, B2. destruct (d_dir d' (P ++ q)) eqn:E; auto. apply M3 in E. destruct E as [E|(r & E)]; [congruence|].
  apply (f_equal (@length text)) in E. rewrite !app_length in E. destruct q; [contradiction|cbn in E; lia].
Qed.

(** only files directly in P change, by appearing or being rewritten *)
Definition inside (P : path) (d d' : disk) : Prop :=
  (forall p, d_dir d' p = d_dir d p) /\
  (forall p, d_file d' p = d_file d p \/ exists x t, p = P ++ [x] /\ d_dir d p = false /\ d_file d' p = Some t).
Lemma inside_refl P d : inside P d d. Proof. split; auto. Qed.
Lemma inside_trans P a b c : inside P a b -> inside P b c -> inside P a c.
Proof.
  intros [A1 A2] [B1 B2]. split; [intros; now rewrite B1|]. intros p. destruct (B2 p) as [E|(x & t & E & D & T)].
  - rewrite E. apply A2.
  - right. exists x, t. rewrite A1 in D. auto.
Qed.
Lemma inside_sound P d d' : sound d -> d_dir d P = true -> inside P d d' -> sound d'.
Proof.
  intros (R & S & X) HP [A1 A2]. split; [now rewrite A1|]. split.
  - intros p c H. rewrite A1. unfold on_disk in H. apply Bool.orb_prop in H. destruct H as [H|H].
    + apply S with c. unfold on_disk. rewrite <- A1, H. reflexivity.
    + destruct (A2 (p ++ [c])) as [E|(x & t & E & _)].
      * apply S with c. unfold on_disk. rewrite <- E, H. now rewrite Bool.orb_true_r.
      * apply app_inj_tail in E. destruct E as [-> _]. exact HP.
  - intros p t H. rewrite A1. destruct (A2 p) as [E|(x & t' & _ & D & _)]; auto. rewrite E in H. eauto.
Qed.
Lemma put_inside d P x t : inside P d (put_file d (P ++ [x]) t).
Proof.
  unfold put_file. destruct (d_dir d (P ++ [x])) eqn:D; [apply inside_refl|]. split; [reflexivity|]. intros p. cbn [d_file].
  destruct (path_eqb_spec p (P ++ [x])) as [->|]; [|now left]. right. exists x, t. auto.
Qed.
Lemma back_inside d P fs : grows (txt ".") (view d P) fs -> inside P d (back d P fs).
Proof.
  intros [_ G]. split; [reflexivity|]. intros p. cbn [back d_file]. destruct (below P p) as [[|x [|y l]]|] eqn:B; auto.
  apply below_inv in B. destruct (path_eqb_spec (comps (txt "./" ++ x)) [x]) as [C|C]; [|now left].
  destruct (G (txt "./" ++ x)) as [E|(Can & _ & t & T)].
  - left. rewrite E. cbn [view fs_file]. rewrite C, B. reflexivity.
  - right. exists x, t. cbn [view fs_can] in Can. rewrite C in Can. apply Bool.negb_true_iff in Can. subst p. auto.
Qed.
