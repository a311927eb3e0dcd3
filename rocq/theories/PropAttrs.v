(** * C102: what a launch leaves in its directory is what the launcher's object says, and the solver reads the derived parameters *)
From Coq Require Import Ascii String Lia.
From Verif Require Import Base BaseLemmas ForList Arith MSphere MGrid MParams MField MEom MInit MIo MMain MSim MLaunch LaunchSpec PText PropIo PropDriver PParams PExit PropParams PropHistory PLaunch LaunchSpec.
Local Open Scope list_scope.

(** ** A Python object's attributes *)
Definition dict (l : list (text * pyval)) : Prop := NoDup (map fst l).
Theorem C102_setattr : forall n v l, dict l ->
  dict (setattr n v l) /\ In (n, v) (setattr n v l) /\
  (forall m w, m <> n -> (In (m, w) (setattr n v l) <-> In (m, w) l)) /\
  (forall w, In (n, w) (setattr n v l) -> w = v) /\
  (forall m, In m (map fst (setattr n v l)) <-> m = n \/ In m (map fst l)).
Proof.
  intros n v l. induction l as [|[m w] l IH]; intros D.
  - cbn. split; [constructor; [intros []|constructor]|]. split; [auto|]. split; [|split].
    + intros m w N. split; [intros [E|[]]; injection E as <- <-; contradiction|intros []].
    + intros w [E|[]]. now injection E.
    + intros m. split; [intros [<-|[]]; auto|intros [<-|[]]; auto].
  - unfold dict in D. cbn [map fst] in D. inversion D as [|? ? N1 D1]; subst. destruct (IH D1) as (A & B & C & U & K).
    cbn [setattr]. destruct (text_eqb_spec m n) as [->|NE].
    + split; [exact D|]. split; [left; reflexivity|]. split; [|split].
      * intros m' w' N. split; intros [E|E]; try (injection E as E1 E2; congruence); now right.
      * intros w' [E|E]; [now injection E|]. exfalso. apply N1. apply in_map_iff. exists (n, w'). auto.
      * intros m'. cbn. intuition congruence.
    + split; [unfold dict; cbn [map fst]; constructor; [|exact A]|].
      { intros X. apply K in X. destruct X as [X|X]; [congruence|contradiction]. }
      split; [now right|]. split; [|split].
      * intros m' w' N. cbn [In]. rewrite C by auto. tauto.
      * intros w' [E|E]; [injection E as E1 E2; congruence|auto].
      * intros m'. cbn [map fst In]. rewrite K. tauto.
Qed.

(** ** The three attributes a launch sets do not disturb what the solver reads *)
(** the names a launch assigns between set_derived_params and the parameter file *)
Definition launch_names : list text := map txt ["output_stem"; "output_dir"; "parameter_file"]%string.
(** the same value under every other name, and no new name *)
Definition same_but (names : list text) (l l' : list (text * pyval)) : Prop :=
  forall m w, ~ In m names -> (In (m, w) l' <-> In (m, w) l).

Lemma setattr_ok n v l : attrs_ok l -> name_ok n -> value_ok v -> attrs_ok (setattr n v l).
Proof.
  intros [D F] Hn Hv. destruct (C102_setattr n v l D) as (A & _ & C & U & _). split; [exact A|].
  rewrite Forall_forall in *. intros [m w] Hm. cbn [fst snd]. destruct (text_eqb_spec m n) as [->|N].
  - apply U in Hm. subst w. auto.
  - apply C in Hm; auto. apply (F _ Hm).
Qed.

Lemma read_same b l l' names key : attrs_ok l -> attrs_ok l' -> same_but names l l' -> ~ In key names ->
  p_read b (Some (write_sim_params l')) key = p_read b (Some (write_sim_params l)) key.
Proof.
  intros H H' S N. destruct (in_dec (list_eq_dec ascii_dec) key (map fst l)) as [I|I].
  - apply in_map_iff in I. destruct I as ([k v] & E & Hv). cbn [fst] in E. subst k.
    assert (Hv' : In (key, v) l') by (apply S; auto).
    assert (HN : name_ok key) by (destruct H as [_ F]; rewrite Forall_forall in F; apply (F _ Hv)).
    destruct v as [s|vs].
    + assert (exists r w, named (body (key, Scalar s)) key r /\ first_word r w) as (r & w & A & B).
      { exists s, (word s). split; [|apply word_spec]. split; [apply HN|left; reflexivity]. }
      exact (eq_trans (read_attr b l' (key, Scalar s) r w H' Hv' A B) (eq_sym (read_attr b l (key, Scalar s) r w H Hv A B))).
    + assert (exists r w, named (body (key, PList vs)) key r /\ first_word r w) as (r & w & A & B).
      { destruct vs as [|x vs].
        - exists [], (word []). split; [|apply word_spec]. split; [apply HN|]. right. unfold body. cbn [fst snd map concat]. now rewrite app_nil_r.
        - exists (x ++ concat (map (fun x => sp_char :: x) vs)), (word (x ++ concat (map (fun x => sp_char :: x) vs))). split; [|apply word_spec]. split; [apply HN|]. now left. }
      exact (eq_trans (read_attr b l' (key, PList vs) r w H' Hv' A B) (eq_sym (read_attr b l (key, PList vs) r w H Hv A B))).
  - rewrite !C52_absent; auto. intros I'. apply I. apply in_map_iff in I'. destruct I' as ([k v] & E & Hv). cbn [fst] in E. subst k.
    apply S in Hv; auto. apply in_map_iff. exists (key, v). auto.
Qed.

(** ** The automatic directory name *)
Definition without (c : ascii) (s : text) : Prop := ~ In c s.
Lemma cut_unique c a b s t : without c a -> without c b -> a ++ c :: s = b ++ c :: t -> a = b /\ s = t.
Proof.
  revert b. induction a as [|x a IH]; intros [|y b] Ha Hb E; cbn in E.
  - injection E as ->. auto.
  - injection E as -> _. exfalso. apply Hb. now left.
  - injection E as -> _. exfalso. apply Ha. now left.
  - injection E as -> E. destruct (IH b) as [-> ->]; auto; intros K; [apply Ha|apply Hb]; now right.
Qed.
(** time.asctime's month, day, hour, minute, second, joined with "_" *)
Definition clock (now : text) : Prop := exists a b c d e, now = a ++ txt "_" ++ b ++ txt "_" ++ c ++ txt "_" ++ d ++ txt "_" ++ e /\
  forall x, In x [a; b; c; d; e] -> without "_"%char x /\ without "/"%char x.
(** a parameter written into the name *)
Definition stem_keys : list string := ["black_hole_mass"; "black_hole_spin"; "nx"; "nl"; "nm"]%string.
Definition values (l : list (text * pyval)) (v : string -> text) : Prop :=
  forall k, In k stem_keys -> In (txt k, Scalar (v k)) l /\ without "_"%char (v k) /\ without "/"%char (v k).
Lemma str_of_In n l v : dict l -> In (txt n, Scalar v) l -> str_of n l = v.
Proof.
  intros D H. unfold str_of. induction l as [|[m w] l IH]; [destruct H|]. unfold dict in D. cbn [map fst] in D. inversion D as [|? ? N1 D1]; subst.
  cbn [List.find fst]. destruct (text_eqb_spec m (txt n)) as [->|NE].
  - destruct H as [H|H]; [injection H as ->; reflexivity|]. exfalso. apply N1. apply in_map_iff. exists (txt n, Scalar v). auto.
  - destruct H as [H|H]; [injection H as E _; contradiction|]. auto.
Qed.
Lemma stem_text now l v : dict l -> values l v -> auto_stem now l =
  "/"%char :: now ++ txt "_" ++ (txt "m" ++ v "black_hole_mass"%string) ++ txt "_" ++ (txt "s" ++ v "black_hole_spin"%string) ++ txt "_" ++
  (txt "nx" ++ v "nx"%string) ++ txt "_" ++ (txt "nl" ++ v "nl"%string) ++ txt "_" ++ (txt "nm" ++ v "nm"%string).
Proof.
  intros D V. unfold auto_stem. assert (G : forall k, In k stem_keys -> str_of k l = v k) by (intros k Hk; apply str_of_In; auto; now apply V).
  rewrite !G by (cbn; tauto). cbn [txt list_ascii_of_string app]. reflexivity.
Qed.
Lemma tl_eq (x : ascii) s t : x :: s = x :: t -> s = t. Proof. congruence. Qed.
(** two launches whose automatic names agree were made in the same second with the same mass, spin, nx, nl and nm *)
Theorem C102_stem_unique now now' l l' v v' : dict l -> dict l' -> clock now -> clock now' -> values l v -> values l' v' ->
  (auto_stem now l = auto_stem now' l' <-> now = now' /\ forall k, In k stem_keys -> v k = v' k).
Proof.
  intros D D' (a & b & c & d & e & -> & C) (a' & b' & c' & d' & e' & -> & C') V V'. rewrite (stem_text _ l v), (stem_text _ l' v') by auto. split.
  - intros E.
    assert (X : forall x, In x [a; b; c; d; e] -> without "_"%char x) by (intros; now apply C). assert (X' : forall x, In x [a'; b'; c'; d'; e'] -> without "_"%char x) by (intros; now apply C').
    rewrite <- !app_assoc in E. injection E as E. change (txt "_") with ["_"%char] in *. cbn [app] in E.
    do 5 (apply cut_unique in E; [|apply X; cbn; tauto|apply X'; cbn; tauto]; let K := fresh "K" in destruct E as [K E]).
    assert (W : forall k, In k stem_keys -> without "_"%char (v k)) by (intros; now apply V). assert (W' : forall k, In k stem_keys -> without "_"%char (v' k)) by (intros; now apply V').
    do 4 (repeat apply tl_eq in E; apply cut_unique in E; [|apply W; cbn; tauto|apply W'; cbn; tauto]; let K := fresh "K" in destruct E as [K E]).
    repeat apply tl_eq in E. subst. split; [reflexivity|]. intros k Hk. cbn in Hk. repeat (destruct Hk as [<-|Hk]; [assumption|]). destruct Hk.
  - intros [-> K]. rewrite !K by (cbn; tauto). reflexivity.
Qed.
(** on this machine the automatic directory is a new entry of Output *)
Theorem C102_automatic now s v : sm_output_dir s = None -> sm_local s = true -> (exists h, sm_home s = "/"%char :: h) -> dict (sm_vars s) -> clock now -> values (sm_vars s) v ->
  exists name, auto_stem now (sm_vars s) = "/"%char :: name /\ resolve (sm_home s) (dir_of now s) = comps (sm_home s) ++ [txt "Output"; name].
Proof.
  intros HO HL HH D (a & b & c & d & e & E & C) V.
  pose proof (stem_text now _ v D V) as ES. set (name := now ++ _) in ES. exists name. split; [exact ES|].
  assert (NS : no_slash name).
  { assert (W : forall k, In k stem_keys -> without "/"%char (v k)) by (intros; now apply V). assert (X : forall x, In x [a; b; c; d; e] -> without "/"%char x) by (intros; now apply C).
    unfold name, no_slash. rewrite E. rewrite !in_app_iff. intros K.
    repeat (destruct K as [K|K]); try (vm_compute in K; repeat destruct K as [K|K]; (discriminate K || contradiction K));
      try (eapply X; [|exact K]; cbn; tauto); try (eapply W; [|exact K]; cbn; tauto). }
  assert (NN : name <> [] /\ name <> txt ".").
  { unfold name. split; intros K; apply (f_equal (@length ascii)) in K; rewrite !app_length in K; cbn in K; lia. }
  refine (eq_trans _ (proj1 (C88_named now (Sim (sm_home s) (Some ("/"%char :: name)) (sm_local s) (sm_out_stem s) (sm_bin s) (sm_vars s)) name HL HH NS (proj1 NN) (proj2 NN)) eq_refl)).
  unfold dir_of, stem_of. cbn [sm_home sm_output_dir sm_local]. now rewrite HO, HL, ES.
Qed.
Example C102_stem_nonvacuous : dict demo_vars /\ clock demo_now /\ (exists v, values demo_vars v /\ v "nx"%string = txt "9").
Proof.
  split; [apply nodupb_ok; vm_compute; reflexivity|]. split.
  - exists (txt "Nov"), (txt "18"), (txt "15"), (txt "20"), (txt "01"). split; [reflexivity|]. intros x Hx. split; apply freeb_ok; repeat destruct Hx as [<-|Hx]; try reflexivity; destruct Hx.
  - exists (fun k => str_of k demo_vars). split; [|reflexivity]. intros k Hk. split; [|split; apply freeb_ok; repeat destruct Hk as [<-|Hk]; try reflexivity; destruct Hk].
    cbn in Hk. repeat (destruct Hk as [<-|Hk]; [cbn; intuition|]). destruct Hk.
Qed.

Section Reads.
Context {F : Type} {AF : Arith F}.
Variable stod_ : text -> option F.
(** Params::Params depends on the file only through the values under the names it asks for *)
Lemma make_same b f f' : (forall k, In k required -> p_read b f (txt k) = p_read b f' (txt k)) -> Params_make stod_ b f = Params_make stod_ b f'.
Proof. intros H. unfold Params_make. cbv zeta. rewrite !H by (vm_compute; tauto). reflexivity. Qed.
Lemma required_not_launch k : In k required -> ~ In (txt k) launch_names.
Proof.
  intros H K. assert (G : forallb (fun k => negb (existsb (text_eqb (txt k)) launch_names)) required = true) by (vm_compute; reflexivity).
  rewrite forallb_forall in G. apply G in H. apply Bool.negb_true_iff in H.
  assert (X : existsb (text_eqb (txt k)) launch_names = true) by (apply existsb_exists; exists (txt k); split; auto; apply text_eqb_refl). congruence.
Qed.
(** the parameters the solver works with are those of set_derived_params, whatever directory the run goes to *)
Theorem C102_parameters b vars vars' : attrs_ok vars -> attrs_ok vars' -> same_but launch_names vars vars' ->
  (forall key, ~ In key launch_names -> p_read b (Some (write_sim_params vars')) key = p_read b (Some (write_sim_params vars)) key) /\
 Params_make stod_ b (Some (write_sim_params vars')) = Params_make stod_ b (Some (write_sim_params vars)).
Proof.
  intros A B S. assert (R : forall key, ~ In key launch_names -> p_read b (Some (write_sim_params vars')) key = p_read b (Some (write_sim_params vars)) key)
    by (intros; eapply read_same; eauto).
  split; auto. apply make_same. intros k Hk. apply R. now apply required_not_launch.
Qed.
End Reads.

(** ** What a launch leaves behind *)
Section Stored.
Variable perm : path -> bool.
Context {F : Type} {AF : Arith F}.
Variable fmt : F -> text.
Variable stod_ : text -> option F.
Variables (sch_res sch_tv : nat -> list (list nat)).
Variable lib : nat -> nat -> nat -> nat -> sht F.
Variables (build_of : text -> build) (stdout slurm : path -> text).
Variable derive : list (text * pyval) -> option (list (text * pyval)).
Notation run_solver := (run_solver fmt stod_ sch_res sch_tv lib build_of stdout).
Notation launch := (launch perm fmt stod_ sch_res sch_tv lib build_of stdout slurm derive).

Lemma ok_inj {A} (a b : A) : Ok a = Ok b -> b = a.
Proof. congruence. Qed.
(** a run writes its output files and out.txt, nothing else in its directory *)
Lemma run_leaves d P bin d' x : run_solver d P bin = Ok d' -> x <> txt "out.txt" -> ~ is_output x -> d_file d' (P ++ [x]) = d_file d (P ++ [x]).
Proof.
  unfold MLaunch.run_solver. intros H N1 N2. inv_bind H. apply ok_inj in H. subst d'.
  assert (E1 : d_file (put_file x0 (P ++ [txt "out.txt"]) (stdout P)) (P ++ [x]) = d_file x0 (P ++ [x])).
  { unfold put_file. destruct (d_dir _ _); auto. cbn [d_file]. destruct (path_eqb_spec (P ++ [x]) (P ++ [txt "out.txt"])) as [K|]; auto. apply app_inj_tail in K. destruct K. contradiction. }
  rewrite E1. clear E1. destruct (d_file d (P ++ comps bin)) as [exe|]; [|now injection E as <-].
  destruct (main _ _ _ _ _ _ _ _ _) as [st| | | |] eqn:M; try discriminate; injection E as <-; auto.
  apply main_grows in M. destruct M as [_ G]. cbn [back d_file]. rewrite below_app. destruct (path_eqb_spec (comps (txt "./" ++ x)) [x]) as [C|C]; auto.
  destruct (G (txt "./" ++ x)) as [K|(_ & (k & Hk) & _)]; [rewrite K; cbn [view fs_file]; now rewrite C|]. exfalso. apply N2. exists k.
  change (txt "." ++ txt "/f") with (txt "./f") in Hk. change (txt "." ++ txt "/rho") with (txt "./rho") in Hk.
  destruct Hk as [Hk|Hk]; rewrite Hk in C; [rewrite (proj1 (f_csv_comps k)) in C|rewrite (proj1 (rho_csv_comps k)) in C]; injection C as <-; auto.
Qed.

(** after a launch that returned: the parameter file says what the launcher's object says; the object has the derived
    values under every name but the three, which are the directory, the stem it was made from and "params.txt"; the
    executable is the one of Bin; a run for the queue has its script, and one more job in the queue; a run on this
    machine has what the solver printed *)
Theorem C102_stored w now (s : sim) w' s' : sound (w_disk w) -> plain s -> sm_bin s <> txt "out.txt" -> sm_bin s <> txt "run.slurm" ->
  launch w now s = Ok (w', s', true) ->
  exists vars out exe, derive (sm_vars s) = Some vars /\ (dict vars -> dict (sm_vars s')) /\ sm_output_dir s' = Some out /\
   (dict vars -> same_but launch_names vars (sm_vars s') /\
     (forall v, In (txt "output_dir", v) (sm_vars s') <-> v = Scalar out) /\
     (forall v, In (txt "output_stem", v) (sm_vars s') <-> v = Scalar (match sm_output_dir s with Some o => o | None => auto_stem now vars end)) /\
     (forall v, In (txt "parameter_file", v) (sm_vars s') <-> v = Scalar (txt "params.txt"))) /\
   let P := resolve (sm_home s) out in
    d_file (w_disk w') (P ++ [txt "params.txt"]) = Some (write_sim_params (sm_vars s')) /\
   d_file (w_disk w) (comps (sm_home s ++ txt "/Bin/" ++ sm_bin s)) = Some exe /\
   d_file (w_disk w') (P ++ [sm_bin s]) = Some exe /\
   (if sm_local s then d_file (w_disk w') (P ++ [txt "out.txt"]) = Some (stdout P) /\ w_jobs w' = w_jobs w
     else d_file (w_disk w') (P ++ [txt "run.slurm"]) = Some (slurm P) /\ w_jobs w' = w_jobs w ++ [(P, sm_bin s)] /\
      forall x, x <> txt "params.txt" -> x <> sm_bin s -> x <> txt "run.slurm" -> d_file (w_disk w') (P ++ [x]) = None).
Proof.
  intros Hs (HB & HN & HN2) NB1 NB2 H. unfold MLaunch.launch in H. destruct (derive (sm_vars s)) as [vars|] eqn:EV; [|discriminate].
  cbv zeta in H. set (s1 := Sim (sm_home s) (sm_output_dir s) (sm_local s) (sm_out_stem s) (sm_bin s) vars) in H.
  unfold make_output_dir in H. set (out := dir_of now s1) in H. change (sm_home s1) with (sm_home s) in H. set (P := resolve (sm_home s) out) in H.
  destruct (makedirs perm (w_disk w) P) as [d1 ok1] eqn:EM. apply makedirs_ok in EM; auto. destruct EM as (S1 & M1 & O1 & K1).
  cbn [sm_output_dir sm_home sm_local sm_out_stem sm_bin sm_vars s1] in H. fold P in H.
  destruct ok1; [|discriminate]. destruct (K1 eq_refl) as [F1 D1].
  assert (FR : forall q, q <> [] -> d_file d1 (P ++ q) = None /\ d_dir d1 (P ++ q) = false).
  { intros q Hq. pose proof (made_fresh (w_disk w) d1 P q Hs M1 F1 Hq) as B. unfold on_disk in B. apply Bool.orb_false_iff in B. destruct B as [B1 B2]. split; auto. destruct (d_file d1 (P ++ q)); [discriminate|auto]. }
  assert (PD : forall d p t q, d_dir (put_file d p t) q = d_dir d q) by (intros; unfold put_file; destruct (d_dir d p); reflexivity).
  assert (PF : forall d x t y, d_dir d (P ++ [x]) = false -> d_file (put_file d (P ++ [x]) t) (P ++ [y]) = if text_eqb y x then Some t else d_file d (P ++ [y])).
  { intros d x t y Hd. unfold put_file. rewrite Hd. cbn [d_file]. destruct (path_eqb_spec (P ++ [y]) (P ++ [x])) as [E|E]; destruct (text_eqb_spec y x) as [E'|E']; auto.
    - apply app_inj_tail in E. destruct E; contradiction.
    - rewrite E' in E. contradiction. }
  set (vars' := setattr (txt "parameter_file") _ _) in H. set (d2 := put_file d1 (P ++ [txt "params.txt"]) (write_sim_params vars')) in H.
  destruct (d_file d2 (comps _)) as [exe|] eqn:EX; [|discriminate]. rewrite HB in H. set (d3 := put_file d2 (P ++ [sm_bin s]) exe) in H.
  assert (DD : forall q, q <> [] -> d_dir d2 (P ++ q) = false /\ d_dir d3 (P ++ q) = false) by (intros q Hq; unfold d3, d2; rewrite !PD; split; apply FR; auto).
  assert (F2 : forall y, d_file d2 (P ++ [y]) = if text_eqb y (txt "params.txt") then Some (write_sim_params vars') else None).
  { intros y. unfold d2. rewrite PF by (apply FR; discriminate). destruct (text_eqb y (txt "params.txt")); auto. apply FR. discriminate. }
  assert (F3 : forall y, d_file d3 (P ++ [y]) = if text_eqb y (sm_bin s) then Some exe else d_file d2 (P ++ [y])) by (intros y; unfold d3; rewrite PF by (apply DD; discriminate); reflexivity).
  assert (EX0 : d_file (w_disk w) (comps (sm_home s ++ txt "/Bin/" ++ sm_bin s)) = Some exe).
  { destruct M1 as (A & _). rewrite <- A. revert EX. unfold d2, put_file. rewrite (proj2 (FR [txt "params.txt"] ltac:(discriminate))). cbn [d_file].
    destruct (path_eqb_spec (comps (sm_home s ++ txt "/Bin/" ++ sm_bin s)) (P ++ [txt "params.txt"])) as [E|]; auto. intros _. exfalso.
    change (txt "/Bin/" ++ sm_bin s) with ("/"%char :: (txt "Bin" ++ "/"%char :: sm_bin s)) in E. rewrite !comps_slash, HB in E. rewrite app_assoc in E. apply app_inj_tail in E. destruct E as [_ E]. contradiction. }
  assert (L3 : d_file d3 (P ++ [txt "params.txt"]) = Some (write_sim_params vars') /\ d_file d3 (P ++ [sm_bin s]) = Some exe).
  { rewrite !F3, !F2. destruct (text_eqb_spec (txt "params.txt") (sm_bin s)) as [E|_]; [exfalso; apply HN2; auto|].
    destruct (text_eqb_spec (sm_bin s) (sm_bin s)); [|contradiction]. destruct (text_eqb_spec (txt "params.txt") (txt "params.txt")); [auto|contradiction]. }
  assert (AT : sm_vars s' = vars' /\ sm_output_dir s' = Some out).
  { destruct (sm_local s); [inv_bind H|]; injection H as _ <-; auto. }
  destruct AT as [AV AO]. exists vars, out, exe. split; [reflexivity|]. rewrite AV.
  set (st := stem_of now s1) in vars'. unfold vars'.
  set (l1 := setattr (txt "output_stem") (Scalar st) vars). set (l2 := setattr (txt "output_dir") (Scalar out) l1). fold l1 in vars'. fold l2 in vars'. fold vars'.
  assert (SA : dict vars -> dict vars' /\ same_but launch_names vars vars' /\ (forall v, In (txt "output_dir", v) vars' <-> v = Scalar out) /\
    (forall v, In (txt "output_stem", v) vars' <-> v = Scalar st) /\ (forall v, In (txt "parameter_file", v) vars' <-> v = Scalar (txt "params.txt"))).
  { intros D0. destruct (C102_setattr (txt "output_stem") (Scalar st) vars D0) as (A1 & A2 & A3 & A4 & _). fold l1 in A1, A2, A3, A4.
    destruct (C102_setattr (txt "output_dir") (Scalar out) l1 A1) as (B1 & B2 & B3 & B4 & _). fold l2 in B1, B2, B3, B4.
    destruct (C102_setattr (txt "parameter_file") (Scalar (txt "params.txt")) l2 B1) as (E1 & E2 & E3 & E4 & _). change (setattr (txt "parameter_file") (Scalar (txt "params.txt")) l2) with vars' in E1, E2, E3, E4.
    split; [exact E1|]. split; [|split; [|split]].
    - intros m x Hm. unfold launch_names in Hm. cbn [map In] in Hm. rewrite E3, B3, A3 by (intros ->; tauto). tauto.
    - intros v. rewrite E3 by discriminate. split; [apply B4|]. intros ->. exact B2.
    - intros v. rewrite E3, B3 by discriminate. split; [apply A4|]. intros ->. exact A2.
    - intros v. split; [apply E4|]. intros ->. exact E2. }
  split; [intros D0; apply SA, D0|]. split; [exact AO|]. split.
  { intros D0. destruct (SA D0) as (_ & A & B & C & D). split; [exact A|]. split; [exact B|]. split; [|exact D]. intros v. rewrite C. unfold st, stem_of, s1. cbn [sm_output_dir sm_vars]. destruct (sm_output_dir s); tauto. }
  cbv zeta. fold P. destruct (sm_local s) eqn:EL.
  - inv_bind H. injection H as <- _. cbn [w_disk w_jobs]. pose proof (run_leaves _ _ _ _ (txt "params.txt") E ltac:(discriminate) (not_output _ (or_introl eq_refl))) as R1.
    pose proof (run_leaves _ _ _ _ (sm_bin s) E NB1 HN) as R2. rewrite R1, R2. split; [apply L3|]. split; [exact EX0|]. split; [apply L3|]. split; [|reflexivity].
    unfold MLaunch.run_solver in E. inv_bind E. apply ok_inj in E. subst x. rewrite PF.
    + destruct (text_eqb_spec (txt "out.txt") (txt "out.txt")); [reflexivity|contradiction].
    + assert (I : d_dir x0 (P ++ [txt "out.txt"]) = d_dir d3 (P ++ [txt "out.txt"])).
      { destruct (d_file d3 (P ++ comps (sm_bin s))) as [e|]; [|now injection E0 as <-]. destruct (main _ _ _ _ _ _ _ _ _); try discriminate; injection E0 as <-; reflexivity. }
      rewrite I. apply DD. discriminate.
  - injection H as <- _. cbn [w_disk w_jobs]. assert (F4 : forall y, d_file (put_file d3 (P ++ [txt "run.slurm"]) (slurm P)) (P ++ [y]) = if text_eqb y (txt "run.slurm") then Some (slurm P) else d_file d3 (P ++ [y]))
      by (intros y; rewrite PF by (apply DD; discriminate); reflexivity).
    split; [rewrite F4; destruct (text_eqb_spec (txt "params.txt") (txt "run.slurm")) as [E|_]; [discriminate E|apply L3]|]. split; [exact EX0|].
    split; [rewrite F4; destruct (text_eqb_spec (sm_bin s) (txt "run.slurm")) as [E|_]; [contradiction|apply L3]|].
    split; [rewrite F4; destruct (text_eqb_spec (txt "run.slurm") (txt "run.slurm")) as [_|E]; [reflexivity|contradiction]|]. split; [reflexivity|].
    intros x X1 X2 X3. rewrite F4, F3, F2. destruct (text_eqb_spec x (txt "run.slurm")); [contradiction|]. destruct (text_eqb_spec x (sm_bin s)); [contradiction|]. destruct (text_eqb_spec x (txt "params.txt")); [contradiction|reflexivity].
Qed.

(** so the solver of that directory gets the derived parameters *)
Theorem C102_solver_reads_derived w now (s : sim) w' s' vars b : sound (w_disk w) -> plain s -> sm_bin s <> txt "out.txt" -> sm_bin s <> txt "run.slurm" ->
  launch w now s = Ok (w', s', true) -> derive (sm_vars s) = Some vars -> attrs_ok vars -> attrs_ok (sm_vars s') ->
  exists out, sm_output_dir s' = Some out /\
   let file := d_file (w_disk w') (resolve (sm_home s) out ++ [txt "params.txt"]) in
    Params_make stod_ b file = Params_make stod_ b (Some (write_sim_params vars)) /\
   (forall key v, ~ In key launch_names -> In (key, Scalar v) vars -> solid v -> p_read b file key = Ok v) /\
   (solid out -> p_read b file (txt "output_dir") = Ok out).
Proof.
  intros Hs Hp N1 N2 H EV A A'. destruct (C102_stored w now s w' s' Hs Hp N1 N2 H) as (vars0 & out & exe & EV' & _ & EO & SB & FP & _).
  rewrite EV in EV'. injection EV' as <-. destruct (SB (proj1 A)) as (S & O & _). exists out. split; [exact EO|]. cbv zeta in FP |- *. rewrite FP.
  destruct (C102_parameters stod_ b vars (sm_vars s') A A' S) as [R M]. split; [exact M|]. split.
  - intros key v NK HK Sv. apply C52_read_back; auto. now apply S.
  - intros So. apply C52_read_back; auto. now apply O.
Qed.
End Stored.

(** *** the hypotheses are met: one job for the queue and one run on this machine *)
From Verif Require Import Toy.
#[local] Existing Instance Z_arith.
Example C102_nonvacuous :
  sound (w_disk demo_world) /\ (forall local, plain (demo_sim local)) /\ attrs_ok demo_vars /\
 forall local, exists w' s', MLaunch.launch all_ok (fun _ => txt "x") demo_stod (fun _ => two_threads 108) (fun _ => two_threads 8) toy_sht (fun _ => Build false true false)
      (fun _ => txt "log") (fun _ => txt "script") Some demo_world demo_now (demo_sim local) = Ok (w', s', true) /\ attrs_ok (sm_vars s') /\ sm_bin (demo_sim local) <> txt "out.txt" /\ sm_bin (demo_sim local) <> txt "run.slurm".
Proof.
  split; [apply demo_sound|]. split; [apply demo_plain|]. split; [apply attrs_okb_ok; vm_compute; reflexivity|]. intros local.
  assert (E : match MLaunch.launch all_ok (fun _ => txt "x") demo_stod (fun _ => two_threads 108) (fun _ => two_threads 8) toy_sht (fun _ => Build false true false)
      (fun _ => txt "log") (fun _ => txt "script") Some demo_world demo_now (demo_sim local) with Ok (_, s', ok) => ok && nodupb (map fst (sm_vars s')) && forallb attr_okb (sm_vars s') | _ => false end%bool = true)
    by (destruct local; vm_compute; reflexivity).
  destruct (MLaunch.launch _ _ _ _ _ _ _ _ _ _ _ _ _) as [[[w' s'] ok]| | | |]; try discriminate. apply andb_prop in E. destruct E as [E E3]. apply andb_prop in E. destruct E as [E1 E2].
  subst ok. exists w', s'. split; [reflexivity|]. split; [now apply attrs_okb_ok|]. destruct local; split; discriminate.
Qed.
