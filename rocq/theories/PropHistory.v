(** * C88: what a history of launches and jobs does to the disk. *)
From Coq Require Import Ascii String Lia.
From Verif Require Import Base BaseLemmas ForList Arith MSphere MGrid MParams MField MEom MInit MIo MMain MSim MLaunch LaunchSpec PText PropIo PropDriver PLaunch.
Local Open Scope list_scope.

Section C88.
Variable perm : path -> bool.
Context {F : Type} {AF : Arith F}.
Variable fmt : F -> text.
Variable stod_ : text -> option F.
Variables (sch_res sch_tv : nat -> list (list nat)).
Variable lib : nat -> nat -> nat -> nat -> sht F.
Variables (build_of : text -> build) (stdout slurm : path -> text).
Variable derive : list (text * pyval) -> option (list (text * pyval)).
Notation run_solver := (run_solver fmt stod_ sch_res sch_tv lib build_of stdout).
Notation launch := (launch perm fmt stod_ sch_res sch_tv lib build_of stdout slurm derive).
Notation happen := (happen perm fmt stod_ sch_res sch_tv lib build_of stdout slurm derive).
Notation history := (history perm fmt stod_ sch_res sch_tv lib build_of stdout slurm derive).

Lemma run_inside d P bin d' : run_solver d P bin = Ok d' -> inside P d d'.
Proof.
  unfold MLaunch.run_solver. intros H. inv_bind H. injection H as <-. eapply inside_trans; [|apply put_inside].
  destruct (d_file d (P ++ comps bin)) as [exe|]; [|injection E as <-; apply inside_refl].
  destruct (main _ _ _ _ _ _ _ _ _) as [st| | | |] eqn:M; try discriminate; injection E as <-; try apply inside_refl.
  apply back_inside. eapply main_grows; eauto.
Qed.
Lemma not_output x : (x = txt "params.txt" \/ x = txt "run.slurm") -> ~ is_output x.
Proof. intros H (k & K). unfold f_csv, rho_csv in K. destruct H as [-> | ->]; destruct K as [K|K]; discriminate K. Qed.

(** what one launch does; P is its directory *)
Lemma launch_ok w now s w' s' ok : sound (w_disk w) -> plain s -> launch w now s = Ok (w', s', ok) ->
  sound (w_disk w') /\ keeps (w_disk w) (w_disk w') /\
  ((w_disk w' = w_disk w /\ w_jobs w' = w_jobs w /\ ok = false) \/
   exists out, let P := resolve (sm_home s) out in sm_output_dir s' = Some out /\ sm_home s' = sm_home s /\ sm_local s' = sm_local s /\ sm_out_stem s' = sm_out_stem s /\
     (exists vars, derive (sm_vars s) = Some vars /\ out = dir_of now (Sim (sm_home s) (sm_output_dir s) (sm_local s) (sm_out_stem s) (sm_bin s) vars)) /\
     (ok = true -> on_disk (w_disk w) P = false /\ d_dir (w_disk w') P = true) /\
     (on_disk (w_disk w) P = true -> w' = w /\ ok = false) /\
     (forall p, d_file (w_disk w') p = d_file (w_disk w) p \/ exists x, p = P ++ [x] /\ on_disk (w_disk w) P = false) /\
     (w_jobs w' = w_jobs w \/ (sm_local s = false /\ ok = true /\ w_jobs w' = w_jobs w ++ [(P, sm_bin s)] /\ clean (w_disk w') P))).
Proof.
  intros Hs (HB & HN & _) H. unfold MLaunch.launch in H. destruct (derive (sm_vars s)) as [vars|] eqn:EV.
  2:{ injection H as <- <- <-. split; auto. split; [split; auto|]. left. auto. }
  cbv zeta in H. set (s1 := Sim (sm_home s) (sm_output_dir s) (sm_local s) (sm_out_stem s) (sm_bin s) vars) in H.
  unfold make_output_dir in H. set (out := dir_of now s1) in H. change (sm_home s1) with (sm_home s) in H. set (P := resolve (sm_home s) out) in H.
  destruct (makedirs perm (w_disk w) P) as [d1 ok1] eqn:EM. apply makedirs_ok in EM; auto. destruct EM as (S1 & M1 & O1 & K1).
  cbn [sm_output_dir sm_home sm_local sm_out_stem sm_bin sm_vars s1] in H. fold P in H.
  assert (KM : keeps (w_disk w) d1) by (destruct M1 as (A & B & _); split; auto; intros p t Hp; now rewrite A).
  destruct ok1.
  2:{ injection H as <- <- <-. cbn [w_disk w_jobs sm_output_dir sm_home sm_local sm_out_stem]. split; auto. split; auto. right. exists out. fold P. cbv zeta.
      do 4 (split; [reflexivity|]). split; [eauto|]. split; [discriminate|]. split; [intros O; destruct (O1 O) as [-> _]; split; [now destruct w|reflexivity]|].
      split; [intros p; left; apply M1|]. now left. }
  destruct (K1 eq_refl) as [F1 D1].
  assert (FR : forall q, q <> [] -> on_disk d1 (P ++ q) = false) by (intros q Hq; apply (made_fresh (w_disk w)); auto).
  assert (NF : forall p t, d_file (w_disk w) p = Some t -> forall x, p <> P ++ [x]).
  { intros p t Hp x ->. pose proof (fresh_below _ _ [x] Hs F1) as B. unfold on_disk in B. rewrite Hp in B. rewrite Bool.orb_true_r in B. discriminate. }
  (* any later change inside P *)
  assert (GEN : forall d2, inside P d1 d2 -> sound d2 /\ keeps (w_disk w) d2 /\ d_dir d2 P = true /\
     (forall p, d_file d2 p = d_file (w_disk w) p \/ exists x, p = P ++ [x] /\ on_disk (w_disk w) P = false)).
  { intros d2 I. split; [eapply inside_sound; eauto|]. destruct I as [I1 I2]. destruct M1 as (A & B & _). split; [|split].
    - split; [|intros p Hp; rewrite I1; auto]. intros p t Hp. destruct (I2 p) as [E|(x & t' & E & _)]; [now rewrite E, A|]. exfalso. eapply NF; eauto.
    - now rewrite I1.
    - intros p. destruct (I2 p) as [E|(x & t' & E & _)]; [left; now rewrite E, A|]. right. eauto. }
  assert (NO : on_disk (w_disk w) P = true -> w' = w /\ ok = false) by (rewrite F1; discriminate).
  set (d2 := put_file d1 (P ++ [txt "params.txt"]) _) in H. assert (I2 : inside P d1 d2) by apply put_inside.
  destruct (d_file d2 (comps _)) as [exe|] eqn:EX.
  2:{ injection H as <- <- <-. cbn [w_disk w_jobs sm_output_dir sm_home sm_local sm_out_stem]. destruct (GEN d2 I2) as (G1 & G2 & G3 & G4). split; auto. split; auto. right. exists out. fold P. cbv zeta.
      do 4 (split; [reflexivity|]). split; [eauto|]. split; [discriminate|]. split; [exact NO|]. split; [exact G4|]. now left. }
  rewrite HB in H. set (d3 := put_file d2 (P ++ [sm_bin s]) exe) in H. assert (I3 : inside P d1 d3) by (eapply inside_trans; [exact I2|apply put_inside]).
  destruct (sm_local s) eqn:EL.
  - inv_bind H. injection H as <- <- <-. assert (I4 : inside P d1 x) by (eapply inside_trans; [exact I3|eapply run_inside; eauto]).
    destruct (GEN x I4) as (G1 & G2 & G3 & G4). cbn [w_disk w_jobs sm_output_dir sm_home sm_local sm_out_stem]. split; auto. split; auto. right. exists out. fold P. cbv zeta.
    do 4 (split; [reflexivity|]). split; [eauto|]. split; [auto|]. split; [exact NO|]. split; [exact G4|]. now left.
  - injection H as <- <- <-. set (d4 := put_file d3 (P ++ [txt "run.slurm"]) (slurm P)) in *.
    assert (I4 : inside P d1 d4) by (eapply inside_trans; [exact I3|apply put_inside]).
    destruct (GEN d4 I4) as (G1 & G2 & G3 & G4). cbn [w_disk w_jobs sm_output_dir sm_home sm_local sm_out_stem]. split; auto. split; auto. right. exists out. fold P. cbv zeta.
    do 4 (split; [reflexivity|]). split; [eauto|]. split; [auto|]. split; [exact NO|]. split; [exact G4|]. right. do 3 (split; [reflexivity|]).
    intros y Hy. assert (N : forall d z t, y <> z -> d_file (put_file d (P ++ [z]) t) (P ++ [y]) = d_file d (P ++ [y])).
    { intros d z t Hz. unfold put_file. destruct (d_dir d (P ++ [z])); auto. cbn [d_file]. destruct (path_eqb_spec (P ++ [y]) (P ++ [z])) as [E|]; auto. apply app_inj_tail in E. destruct E; contradiction. }
    unfold d4. rewrite N by (intros X; apply (not_output y); auto). unfold d3. rewrite N by (intros X; apply HN; congruence). unfold d2. rewrite N by (intros X; apply (not_output y); auto).
    pose proof (FR [y] ltac:(discriminate)) as B. unfold on_disk in B. apply Bool.orb_false_iff in B. destruct B as [_ B]. destruct (d_file d1 (P ++ [y])); [discriminate|reflexivity].
Qed.

Definition tidy (w : world) : Prop :=
  sound (w_disk w) /\ NoDup (map fst (w_jobs w)) /\ forall P bin, In (P, bin) (w_jobs w) -> d_dir (w_disk w) P = true /\ clean (w_disk w) P.
Definition plain_event (e : event) : Prop := match e with ELaunch _ s => plain s | EJob _ => True end.

Lemma nth_split_jobs {A} (l : list A) i x : nth_error l i = Some x -> l = firstn i l ++ x :: skipn (S i) l.
Proof. revert i. induction l as [|y l IH]; intros [|i] H; cbn in H; try discriminate; [injection H as ->; reflexivity|]. cbn [firstn skipn app]. f_equal. now apply IH. Qed.

Lemma happen_tidy w e w' : tidy w -> plain_event e -> happen w e = Ok w' ->
  tidy w' /\ (forall p t, d_file (w_disk w) p = Some t -> ~ pending w p -> d_file (w_disk w') p = Some t /\ ~ pending w' p).
Proof.
  intros (Hs & ND & HJ) Hp H. destruct e as [now s|i]; cbn [MLaunch.happen] in H.
  - inv_bind H. destruct x as [[w1 s1] ok]. injection H as <-. apply launch_ok in E; auto.
    destruct E as (S1 & (K1 & K2) & [(E1 & E2 & _)|(out & _ & _ & _ & _ & _ & Hok & Hno & HF & HQ)]).
    + split; [split; auto; rewrite E2; split; auto; rewrite E1; auto|]. intros p t Hpt NP. rewrite E1. split; auto. unfold pending in *. now rewrite E2.
    + set (P := resolve (sm_home s) out) in *.
      assert (OLD : forall Q b0, In (Q, b0) (w_jobs w) -> d_dir (w_disk w1) Q = true /\ clean (w_disk w1) Q).
      { intros Q b0 HQ0. destruct (HJ Q b0 HQ0) as [D C]. split; auto. intros x Hx. destruct (HF (Q ++ [x])) as [->|(y & E & NP)]; [auto|]. exfalso.
        apply app_inj_tail in E. destruct E as [-> _]. unfold on_disk in NP. rewrite D in NP. discriminate. }
      assert (NPD : forall p t, d_file (w_disk w) p = Some t -> on_disk (w_disk w) P = false -> forall x, p <> P ++ [x]).
      { intros p t Hpt NP x ->. pose proof (fresh_below _ _ [x] Hs NP) as B. unfold on_disk in B. rewrite Hpt, Bool.orb_true_r in B. discriminate. }
      destruct HQ as [EQ|(_ & -> & EQ & CL)].
      * split; [split; auto; rewrite EQ; auto|]. intros p t Hpt NP. split; auto. unfold pending in *. now rewrite EQ.
      * destruct (Hok eq_refl) as [F1 D1]. split.
        { split; auto. rewrite EQ. split.
          - rewrite map_app. cbn [map fst]. apply (NoDup_Add (Add_app P (map fst (w_jobs w)) [])). rewrite app_nil_r. split; auto. intros HI. apply in_map_iff in HI. destruct HI as ([Q b0] & EQ' & HI). cbn in EQ'. subst Q. destruct (HJ P b0 HI) as [D _]. unfold on_disk in F1. rewrite D in F1. discriminate.
          - intros Q b0 HI. apply in_app_iff in HI. destruct HI as [HI|[HI|[]]]; [eauto|]. injection HI as <- <-. auto. }
        { intros p t Hpt NP. split; auto. intros (Q & b0 & x & HI & Ex). rewrite EQ in HI. apply in_app_iff in HI. destruct HI as [HI|[HI|[]]].
          - apply NP. exists Q, b0, x. auto.
          - injection HI as <- <-. eapply NPD; eauto. }
  - destruct (nth_error (w_jobs w) i) as [[P bin]|] eqn:EN.
    + inv_bind H. injection H as <-. apply run_inside in E. pose proof (nth_split_jobs _ _ _ EN) as SP.
      assert (HIN : In (P, bin) (w_jobs w)) by (eapply nth_error_In; eauto). destruct (HJ P bin HIN) as [DP _].
      rewrite SP in ND. rewrite map_app in ND. cbn [map fst] in ND. pose proof (NoDup_remove_1 _ _ _ ND) as ND1. pose proof (NoDup_remove_2 _ _ _ ND) as ND2.
      assert (SUB : forall y, In y (firstn i (w_jobs w) ++ skipn (S i) (w_jobs w)) -> In y (w_jobs w)).
      { intros y Hy. rewrite SP. rewrite in_app_iff in *. cbn. tauto. }
      pose proof E as [I1 I2]. split.
      * split; [eapply inside_sound; eauto|]. cbn [w_jobs w_disk]. split; [now rewrite map_app|]. intros Q b0 HI. destruct (HJ Q b0 (SUB _ HI)) as [D C].
        split; [now rewrite I1|]. intros y Hy. destruct (I2 (Q ++ [y])) as [->|(z & t & Ez & _)]; [auto|]. exfalso. apply app_inj_tail in Ez. destruct Ez as [-> _].
        apply ND2. rewrite <- map_app. apply in_map_iff. exists (P, b0). auto.
      * cbn [w_disk]. intros p t Hpt NP. split.
        -- destruct (I2 p) as [->|(z & t' & Ez & _)]; auto. exfalso. apply NP. exists P, bin, z. auto.
        -- intros (Q & b0 & x0 & HI & Ex). apply NP. exists Q, b0, x0. auto.
    + injection H as <-. split; [split; auto|auto].
Qed.
Lemma history_tidy es : forall w w', tidy w -> Forall plain_event es -> history w es = Ok w' ->
  tidy w' /\ (forall p t, d_file (w_disk w) p = Some t -> ~ pending w p -> d_file (w_disk w') p = Some t /\ ~ pending w' p).
Proof.
  induction es as [|e es IH]; intros w w' T Hp H; [injection H as <-; auto|]. cbn [MLaunch.history] in H. inv_bind H. inversion Hp; subst.
  destruct (happen_tidy w e x T H2 E) as [T1 K1]. destruct (IH x w' T1 H3 H) as [T2 K2]. split; auto. intros p t A B. destruct (K1 p t A B) as [A' B']. auto.
Qed.

(** ** The theorems *)
(** a launch changes no existing file; if it goes ahead, its directory is new and only files in that directory appear *)
Theorem C88_launch w now s w' s' ok : sound (w_disk w) -> plain s -> launch w now s = Ok (w', s', ok) ->
  sound (w_disk w') /\ keeps (w_disk w) (w_disk w') /\
  (ok = true -> exists out, sm_output_dir s' = Some out /\ let P := resolve (sm_home s) out in
     on_disk (w_disk w) P = false /\ d_dir (w_disk w') P = true /\
     forall p, d_file (w_disk w') p = d_file (w_disk w) p \/ exists x, p = P ++ [x]).
Proof.
  intros Hs Hp H. apply launch_ok in H; auto. destruct H as (A & B & C). split; auto. split; auto. intros ->.
  destruct C as [(_ & _ & C)|(out & E & _ & _ & _ & _ & K & _ & FF & _)]; [discriminate|]. exists out. split; auto. cbv zeta. destruct (K eq_refl) as [K1 K2].
  split; auto. split; auto. intros p. destruct (FF p) as [G|(x & G & _)]; eauto.
Qed.
(** a launch into an existing directory or file raises and changes nothing at all *)
Theorem C88_occupied w now s vars : sound (w_disk w) -> derive (sm_vars s) = Some vars ->
  on_disk (w_disk w) (resolve (sm_home s) (dir_of now (Sim (sm_home s) (sm_output_dir s) (sm_local s) (sm_out_stem s) (sm_bin s) vars))) = true ->
  exists s', launch w now s = Ok (w, s', false).
Proof.
  intros Hs EV O. unfold MLaunch.launch. rewrite EV. cbv zeta. unfold make_output_dir. cbn [sm_home sm_vars sm_local sm_out_stem sm_bin sm_output_dir] in *.
  destruct (makedirs perm (w_disk w) _) as [d1 ok1] eqn:EM. apply makedirs_ok in EM; auto. destruct EM as (_ & _ & K & _). destruct (K O) as [-> ->].
  eexists. destruct w; reflexivity.
Qed.
(** results, once a run has finished, are never touched again, whatever is launched or executed later *)
Theorem C88_history w es1 w1 es2 w2 : sound (w_disk w) -> w_jobs w = [] -> Forall plain_event es1 -> Forall plain_event es2 ->
  history w es1 = Ok w1 -> history w1 es2 = Ok w2 ->
  forall p t, d_file (w_disk w1) p = Some t -> ~ pending w1 p -> d_file (w_disk w2) p = Some t.
Proof.
  intros Hs Hj P1 P2 H1 H2 p t A B. assert (T : tidy w) by (split; auto; rewrite Hj; split; [constructor|intros ? ? []]).
  destruct (history_tidy es1 w w1 T P1 H1) as [T1 _]. destruct (history_tidy es2 w1 w2 T1 P2 H2) as [_ K]. now destruct (K p t A B).
Qed.
(** whenever a job starts, its directory holds no output file, and no two jobs share a directory *)
Theorem C88_jobs w es w1 : sound (w_disk w) -> w_jobs w = [] -> Forall plain_event es -> history w es = Ok w1 ->
  NoDup (map fst (w_jobs w1)) /\ forall P bin, In (P, bin) (w_jobs w1) -> d_dir (w_disk w1) P = true /\ clean (w_disk w1) P.
Proof.
  intros Hs Hj P1 H1. assert (T : tidy w) by (split; auto; rewrite Hj; split; [constructor|intros ? ? []]).
  destruct (history_tidy es w w1 T P1 H1) as [(_ & A & B) _]. auto.
Qed.

(** ** contents of the output files *)
Lemma not_out k : f_csv k <> txt "out.txt" /\ rho_csv k <> txt "out.txt".
Proof. split; intros K; discriminate K. Qed.
Lemma solver_outputs d P bin exe par : comps bin = [bin] -> d_file d (P ++ [bin]) = Some exe ->
  Params_make stod_ (build_of exe) (d_file d (P ++ [txt "params.txt"])) = Ok par -> runnable sch_res sch_tv (build_of exe) lib par ->
  1 <= pr_t_step_save par -> (Z.of_nat (pr_nt par) < 2 ^ 31)%Z -> clean d P -> (forall x, is_output x -> d_dir d (P ++ [x]) = false) ->
  exists g e u0 step rho d', set_up (build_of exe) lib par g e u0 /\ is_step g e step /\ is_rho g e rho /\ run_solver d P bin = Ok d' /\
    forall k, saved par k -> let u := Nat.iter (k * pr_t_step_save par) step u0 in
      exists tf tr, is_text fmt g (fst u) tf /\ is_text fmt g (rho u) tr /\
        d_file d' (P ++ [f_csv (Z.of_nat k)]) = Some tf /\ d_file d' (P ++ [rho_csv (Z.of_nat k)]) = Some tr.
Proof.
  intros HB HX HP HR H1 H2 HC HD.
  destruct (C48_outputs fmt stod_ sch_res sch_tv (build_of exe) lib par (d_file d (P ++ [txt "params.txt"])) (txt ".") (view d P) HP HR H1 H2) as (g & e & u0 & step & rho & st & S1 & S2 & S3 & EM & FK & _).
  { intros k _. unfold f_file, rho_file. change (txt "." ++ txt "/f") with (txt "./f"). change (txt "." ++ txt "/rho") with (txt "./rho"). cbn [view fs_can].
    destruct (f_csv_comps (Z.of_nat k)) as [-> _]. destruct (rho_csv_comps (Z.of_nat k)) as [-> _]. rewrite !HD; unfold is_output; eauto. }
  exists g, e, u0, step, rho. eexists. do 3 (split; [eassumption|]). split.
  - unfold MLaunch.run_solver. rewrite HB, HX. rewrite EM. cbn [bind]. reflexivity.
  - intros k Hk u. destruct (FK k Hk) as (tf & tr & T1 & T2 & A1 & A2). exists tf, tr. fold u in T1, T2, A1, A2. do 2 (split; [assumption|]).
    unfold f_file, rho_file, contents in A1, A2. change (txt "." ++ txt "/f") with (txt "./f") in A1. change (txt "." ++ txt "/rho") with (txt "./rho") in A2. cbn [view fs_file] in A1, A2.
    destruct (f_csv_comps (Z.of_nat k)) as (C1 & C1' & E1). destruct (rho_csv_comps (Z.of_nat k)) as (C2 & C2' & E2).
    rewrite C1, HC in A1 by (unfold is_output; eauto). rewrite C2, HC in A2 by (unfold is_output; eauto). cbn [app] in A1, A2. rewrite E1 in A1. rewrite E2 in A2.
    assert (N : forall y t, y <> txt "out.txt" -> comps (txt "./" ++ y) = [y] -> fs_file (ms_fs st) (txt "./" ++ y) = Some t ->
      d_file (put_file (back d P (ms_fs st)) (P ++ [txt "out.txt"]) (stdout P)) (P ++ [y]) = Some t).
    { intros y t Hy Cy Hf. assert (B : d_file (back d P (ms_fs st)) (P ++ [y]) = Some t).
      { cbn [back d_file]. rewrite below_app, Cy. destruct (path_eqb_spec [y] [y]); [exact Hf|contradiction]. }
      unfold put_file. destruct (d_dir _ _); auto. cbn [d_file]. destruct (path_eqb_spec (P ++ [y]) (P ++ [txt "out.txt"])) as [E|]; auto. apply app_inj_tail in E. destruct E; contradiction. }
    split; apply N; auto; apply not_out.
Qed.

(** a job run by the queue: exactly the states of the run, once, in files that hold nothing else (unless somebody
    made a directory of that name) *)
Theorem C88_job_outputs w es w1 i P bin exe par : sound (w_disk w) -> w_jobs w = [] -> Forall plain_event es -> history w es = Ok w1 ->
  nth_error (w_jobs w1) i = Some (P, bin) -> comps bin = [bin] -> d_file (w_disk w1) (P ++ [bin]) = Some exe ->
  Params_make stod_ (build_of exe) (d_file (w_disk w1) (P ++ [txt "params.txt"])) = Ok par -> runnable sch_res sch_tv (build_of exe) lib par ->
  1 <= pr_t_step_save par -> (Z.of_nat (pr_nt par) < 2 ^ 31)%Z -> (forall x, is_output x -> d_dir (w_disk w1) (P ++ [x]) = false) ->
  exists g e u0 step rho w2, set_up (build_of exe) lib par g e u0 /\ is_step g e step /\ is_rho g e rho /\ happen w1 (EJob i) = Ok w2 /\
    forall k, saved par k -> let u := Nat.iter (k * pr_t_step_save par) step u0 in
      exists tf tr, is_text fmt g (fst u) tf /\ is_text fmt g (rho u) tr /\
        d_file (w_disk w2) (P ++ [f_csv (Z.of_nat k)]) = Some tf /\ d_file (w_disk w2) (P ++ [rho_csv (Z.of_nat k)]) = Some tr.
Proof.
  intros Hs Hj Hp H HN HB HX HP HR H1 H2 HD. destruct (C88_jobs w es w1 Hs Hj Hp H) as [_ HC]. destruct (HC P bin (nth_error_In _ _ HN)) as [_ CL].
  destruct (solver_outputs (w_disk w1) P bin exe par HB HX HP HR H1 H2 CL HD) as (g & e & u0 & step & rho & d' & A & B & C & D & E).
  exists g, e, u0, step, rho. eexists. do 3 (split; [eassumption|]). split; [cbn [MLaunch.happen]; rewrite HN, D; cbn [bind]; reflexivity|]. exact E.
Qed.

(** the same for a run on the local machine *)
Theorem C88_outputs w now s vars exe par : sound (w_disk w) -> plain s -> sm_local s = true -> derive (sm_vars s) = Some vars ->
  let out := dir_of now (Sim (sm_home s) (sm_output_dir s) (sm_local s) (sm_out_stem s) (sm_bin s) vars) in let P := resolve (sm_home s) out in
  snd (makedirs perm (w_disk w) P) = true -> d_file (w_disk w) (comps (sm_home s ++ txt "/Bin/" ++ sm_bin s)) = Some exe ->
  Params_make stod_ (build_of exe) (Some (write_sim_params (setattr (txt "parameter_file") (Scalar (txt "params.txt"))
    (setattr (txt "output_dir") (Scalar out) (setattr (txt "output_stem") (Scalar (stem_of now (Sim (sm_home s) (sm_output_dir s) (sm_local s) (sm_out_stem s) (sm_bin s) vars))) vars))))) = Ok par ->
  runnable sch_res sch_tv (build_of exe) lib par -> 1 <= pr_t_step_save par -> (Z.of_nat (pr_nt par) < 2 ^ 31)%Z ->
  exists g e u0 step rho w' s', set_up (build_of exe) lib par g e u0 /\ is_step g e step /\ is_rho g e rho /\ launch w now s = Ok (w', s', true) /\
    forall k, saved par k -> let u := Nat.iter (k * pr_t_step_save par) step u0 in
      exists tf tr, is_text fmt g (fst u) tf /\ is_text fmt g (rho u) tr /\
        d_file (w_disk w') (P ++ [f_csv (Z.of_nat k)]) = Some tf /\ d_file (w_disk w') (P ++ [rho_csv (Z.of_nat k)]) = Some tr.
Proof.
  intros Hs (HB & HN & HN2) HL HV out P HM HX HP HR H1 H2.
  destruct (makedirs perm (w_disk w) P) as [d1 ok1] eqn:EM. cbn [snd] in HM. subst ok1.
  destruct (makedirs_ok perm _ _ _ _ Hs EM) as (S1 & M1 & _ & K). destruct (K eq_refl) as [F1 D1]. clear K.
  assert (FR : forall q, q <> [] -> on_disk d1 (P ++ q) = false) by (intros q Hq; apply (made_fresh (w_disk w)); auto).
  assert (FF : forall q, q <> [] -> d_file d1 (P ++ q) = None /\ d_dir d1 (P ++ q) = false).
  { intros q Hq. specialize (FR q Hq). unfold on_disk in FR. apply Bool.orb_false_iff in FR. destruct FR as [A B]. split; auto. destruct (d_file d1 (P ++ q)); [discriminate|auto]. }
  match type of HP with Params_make _ _ (Some ?t) = _ => set (ptext := t) in HP end.
  assert (PD : forall d p t q, d_dir (put_file d p t) q = d_dir d q) by (intros; unfold put_file; destruct (d_dir d p); reflexivity).
  assert (PF : forall d x t y, d_dir d (P ++ [x]) = false -> d_file (put_file d (P ++ [x]) t) (P ++ [y]) = if path_eqb [y] [x] then Some t else d_file d (P ++ [y])).
  { intros d x t y Hd. unfold put_file. rewrite Hd. cbn [d_file]. destruct (path_eqb_spec (P ++ [y]) (P ++ [x])) as [E|E]; destruct (path_eqb_spec [y] [x]) as [E'|E']; auto.
    - apply app_inv_head in E. contradiction.
    - rewrite E' in E. contradiction. }
  set (d2 := put_file d1 (P ++ [txt "params.txt"]) ptext). set (d3 := put_file d2 (P ++ [sm_bin s]) exe).
  assert (DD : forall q, q <> [] -> d_dir d2 (P ++ q) = false /\ d_dir d3 (P ++ q) = false) by (intros q Hq; unfold d3, d2; rewrite !PD; destruct (FF q Hq); auto).
  assert (EX : d_file d2 (comps (sm_home s ++ txt "/Bin/" ++ sm_bin s)) = Some exe).
  { unfold d2, put_file. rewrite (proj2 (FF [txt "params.txt"] ltac:(discriminate))). cbn [d_file].
    destruct (path_eqb_spec (comps (sm_home s ++ txt "/Bin/" ++ sm_bin s)) (P ++ [txt "params.txt"])) as [E|]; [|destruct M1 as (A & _); now rewrite A].
      exfalso. pose proof (fresh_below _ _ [txt "params.txt"] Hs F1) as B. unfold on_disk in B. rewrite <- E, HX, Bool.orb_true_r in B. discriminate. }
  assert (NE : path_eqb [txt "params.txt"] [sm_bin s] = false) by (destruct (path_eqb_spec [txt "params.txt"] [sm_bin s]) as [E|]; auto; exfalso; apply HN2; exact (f_equal (hd []) (eq_sym E))).
  destruct (solver_outputs d3 P (sm_bin s) exe par) as (g & e & u0 & step & rho & d' & A & B & C & D & E); auto.
  - unfold d3. rewrite PF by (apply DD; discriminate). destruct (path_eqb_spec [sm_bin s] [sm_bin s]); congruence.
  - assert (Q : d_file d3 (P ++ [txt "params.txt"]) = Some ptext).
    { unfold d3. rewrite PF by (apply DD; discriminate). rewrite NE. unfold d2. rewrite PF by (apply FF; discriminate). destruct (path_eqb_spec [txt "params.txt"] [txt "params.txt"]); congruence. }
    rewrite Q. exact HP.
  - intros x Hx. unfold d3. rewrite PF by (apply DD; discriminate). destruct (path_eqb_spec [x] [sm_bin s]) as [E|]; [exfalso; apply HN; apply (f_equal (hd [])) in E; cbn [hd] in E; congruence|].
    unfold d2. rewrite PF by (apply FF; discriminate). destruct (path_eqb_spec [x] [txt "params.txt"]) as [E|]; [exfalso; apply (not_output x); auto; left; exact (f_equal (hd []) E)|]. apply FF. discriminate.
  - intros x _. apply DD. discriminate.
  - exists g, e, u0, step, rho. eexists _, _. do 3 (split; [eassumption|]). split.
    + unfold MLaunch.launch. rewrite HV. cbv zeta. unfold make_output_dir. cbn [sm_home sm_output_dir sm_local sm_out_stem sm_bin sm_vars]. fold out. fold P. rewrite EM.
      cbn [sm_home sm_output_dir sm_local sm_out_stem sm_bin sm_vars]. fold P. fold ptext. fold d2. rewrite EX, HB. fold d3. rewrite HL, D. cbn [bind]. reflexivity.
    + exact E.
Qed.

(** ** where the directory is *)
Lemma comps_slash a b : comps (a ++ "/"%char :: b) = comps a ++ comps b.
Proof.
  assert (G : forall cur, exists last, split_slash cur a = removelast (split_slash cur a) ++ [last] /\ split_slash cur (a ++ "/"%char :: b) = split_slash cur a ++ split_slash [] b).
  { induction a as [|c a IH]; intros cur; cbn [app split_slash].
    - exists cur. auto.
    - destruct (Ascii.eqb_spec c "/"%char) as [->|].
      + destruct (IH []) as (l & A & B). exists l. rewrite B. destruct (split_slash [] a) as [|y z] eqn:E; [destruct (removelast []); discriminate A|]. cbn [removelast app]. split; [now rewrite A at 1|reflexivity].
      + apply IH. }
  destruct (G []) as (_ & _ & E). unfold comps. rewrite E. apply filter_app.
Qed.
Lemma comps_plain x : no_slash x -> x <> [] -> x <> txt "." -> comps x = [x].
Proof.
  intros H N1 N2. unfold comps. rewrite split_plain by auto. cbn [app filter]. destruct (text_eqb_spec x []); [contradiction|]. destruct (text_eqb_spec x (txt ".")); [contradiction|]. reflexivity.
Qed.
Lemma resolve_home home x : (exists h, home = "/"%char :: h) -> resolve home (home ++ x) = comps (home ++ x).
Proof. intros (h & ->). reflexivity. Qed.
(** a directory name "/x" puts the run into Output/x; a name without the slash does not: the run goes next to Output *)
Theorem C88_named now s x : sm_local s = true -> (exists h, sm_home s = "/"%char :: h) -> no_slash x -> x <> [] -> x <> txt "." ->
  (sm_output_dir s = Some ("/"%char :: x) -> resolve (sm_home s) (dir_of now s) = comps (sm_home s) ++ [txt "Output"; x]) /\
  (sm_output_dir s = Some x -> resolve (sm_home s) (dir_of now s) = comps (sm_home s) ++ [txt "Output" ++ x]).
Proof.
  intros HL HH Hx N1 N2. unfold dir_of, stem_of. rewrite HL. split; intros ->; rewrite resolve_home by auto.
  - change (sm_home s ++ txt "/Output" ++ "/"%char :: x) with (sm_home s ++ "/"%char :: (txt "Output" ++ "/"%char :: x)). rewrite !comps_slash. f_equal. rewrite (comps_plain x) by auto. reflexivity.
  - change (sm_home s ++ txt "/Output" ++ x) with (sm_home s ++ "/"%char :: (txt "Output" ++ x)). rewrite comps_slash. f_equal. apply comps_plain; try discriminate.
    intros K. apply in_app_iff in K. destruct K as [K|K]; [|now apply Hx]. vm_compute in K. repeat destruct K as [K|K]; try discriminate K; auto.
Qed.
(** launching the same object again does not repeat the run in a fresh directory beside the first one: the new directory
    lies at the end of a copy of the whole path below Output *)
Theorem C88_same_object w now s w' s' ok now' vars' : sound (w_disk w) -> plain s -> sm_local s = true -> (exists h, sm_home s = "/"%char :: h) ->
  launch w now s = Ok (w', s', ok) -> ok = true -> let s2 := Sim (sm_home s') (sm_output_dir s') (sm_local s') (sm_out_stem s') (sm_bin s') vars' in
  exists out, sm_output_dir s' = Some out /\
    resolve (sm_home s') (dir_of now' s2) = comps (sm_home s) ++ [txt "Output"] ++ resolve (sm_home s) out.
Proof.
  intros Hs Hp HL HH H -> s2. apply launch_ok in H; auto. destruct H as (_ & _ & [(_ & _ & C)|(out & E & E1 & E2 & _ & (vars & _ & Eo) & _)]); [discriminate|].
  exists out. split; auto. unfold dir_of, stem_of, s2. cbn [sm_local sm_home sm_output_dir]. rewrite E2, HL, E, E1.
  assert (HO : exists o, out = "/"%char :: o). { unfold dir_of in Eo. cbn [sm_local sm_home] in Eo. rewrite HL in Eo. destruct HH as (h & Hh). rewrite Hh in Eo. cbn [app] in Eo. eauto. }
  destruct HO as (o & ->). rewrite resolve_home by auto. change (sm_home s ++ txt "/Output" ++ "/"%char :: o) with (sm_home s ++ "/"%char :: (txt "Output" ++ "/"%char :: o)).
  rewrite !comps_slash. reflexivity.
Qed.
End C88.

(** ** A concrete case: an empty Output directory, one run on this machine and one job, with the toy arithmetic. *)
From Verif Require Import Toy.
Section Example_.
#[local] Existing Instance Z_arith.
Definition demo_vars : list (text * pyval) := map (fun a => (txt (fst a), Scalar (txt (snd a))))
  [("home_dir","/home"); ("nt","7"); ("nx","9"); ("nl","2"); ("nm","1"); ("nlat","3"); ("nphi","4"); ("t_step_save","3"); ("dt","0.01"); ("compactification_length","100"); ("Rmax","100");
   ("Rmin","1.9"); ("black_hole_mass","1"); ("black_hole_spin","0.7"); ("km1","0"); ("k0","1"); ("k1","0"); ("k2","0"); ("V2","0"); ("V3","0"); ("V4","0");
   ("initial_data_type","compact_pulse"); ("initial_data_direction","ingoing"); ("amp","0.1"); ("rl","2"); ("ru","4"); ("l_ang","1"); ("m_ang","1")]%string.
Definition demo_sim (local : bool) : sim := Sim (txt "/home") None local (txt "/scratch") (txt "default_fd.run") demo_vars.
Definition demo_disk : disk :=
  Disk (fun p => existsb (path_eqb p) [[]; [txt "home"]; [txt "home"; txt "Output"]; [txt "home"; txt "Bin"]; [txt "scratch"]])
       (fun p => if path_eqb p [txt "home"; txt "Bin"; txt "default_fd.run"] then Some (txt "ELF") else None).
Definition demo_world := World demo_disk [].
Definition all_ok : path -> bool := fun _ => true.
Definition demo_now : text := txt "Nov_18_15_20_01".
Lemma demo_sound : sound demo_disk.
Proof.
  assert (D : forall p, d_dir demo_disk p = true <-> In p [[]; [txt "home"]; [txt "home"; txt "Output"]; [txt "home"; txt "Bin"]; [txt "scratch"]]).
  { intros p. unfold demo_disk. cbn [d_dir]. rewrite existsb_exists. split; [intros (q & Hq & E); destruct (path_eqb_spec p q); [now subst|discriminate]|].
    intros H. exists p. split; auto. destruct (path_eqb_spec p p); congruence. }
  split; [reflexivity|]. split.
  - intros p c H. apply D. unfold on_disk in H. apply Bool.orb_prop in H. destruct H as [H|H].
    + apply D in H. destruct p as [|x p]; [cbn; tauto|]. destruct H as [H|[H|[H|[H|[H|[]]]]]]; try (destruct p; discriminate H).
      * injection H as <- H. destruct p as [|y p]; [cbn; tauto|]. destruct p; discriminate H.
      * injection H as <- H. destruct p as [|y p]; [cbn; tauto|]. destruct p; discriminate H.
    + cbn [d_file demo_disk] in H. destruct (path_eqb_spec (p ++ [c]) [txt "home"; txt "Bin"; txt "default_fd.run"]) as [E|]; [|discriminate].
      change [txt "home"; txt "Bin"; txt "default_fd.run"] with ([txt "home"; txt "Bin"] ++ [txt "default_fd.run"]) in E. apply app_inj_tail in E. destruct E as [-> _]. cbn. tauto.
  - intros p t H. cbn [d_file demo_disk] in H. destruct (path_eqb_spec p [txt "home"; txt "Bin"; txt "default_fd.run"]) as [->|]; [reflexivity|discriminate].
Qed.
Lemma demo_plain local : plain (demo_sim local).
Proof. split; [reflexivity|]. split; [intros (k & [K|K]); discriminate K|discriminate]. Qed.

Example C88_nonvacuous :
  sound (w_disk demo_world) /\ w_jobs demo_world = [] /\ (forall local, plain (demo_sim local)) /\
  (* a run on this machine *)
  (let out := dir_of demo_now (demo_sim true) in
   resolve (txt "/home") out = [txt "home"; txt "Output"; txt "Nov_18_15_20_01_m1_s0.7_nx9_nl2_nm1"] /\ snd (makedirs all_ok demo_disk (resolve (txt "/home") out)) = true /\
   Params_make demo_stod (Build false true false) (Some (write_sim_params (setattr (txt "parameter_file") (Scalar (txt "params.txt"))
     (setattr (txt "output_dir") (Scalar out) (setattr (txt "output_stem") (Scalar (stem_of demo_now (demo_sim true))) demo_vars))))) = Ok (demo_params 7 3)) /\
  runnable (fun _ => two_threads 108) (fun _ => two_threads 8) (Build false true false) toy_sht (demo_params 7 3) /\
  (* a job, and the same launch again in the same second *)
  (let H := history all_ok (fun _ => txt "x") demo_stod (fun _ => two_threads 108) (fun _ => two_threads 8) toy_sht (fun _ => Build false true false) (fun _ => []) (fun _ => []) Some in
   let P := [txt "scratch"; txt "Nov_18_15_20_01_m1_s0.7_nx9_nl2_nm1"] in
   exists w1, H demo_world [ELaunch demo_now (demo_sim false)] = Ok w1 /\ w_jobs w1 = [(P, txt "default_fd.run")] /\
     d_file (w_disk w1) (P ++ [txt "default_fd.run"]) = Some (txt "ELF") /\ H w1 [ELaunch demo_now (demo_sim false)] = Ok w1).
Proof.
  split; [apply demo_sound|]. split; [reflexivity|]. split; [apply demo_plain|]. split; [|split].
  - split; [vm_compute; reflexivity|]. split; vm_compute; reflexivity.
  - destruct C48_C51_C65_nonvacuous as (_ & _ & _ & R & _). apply R.
  - eexists. split; [unfold history, happen; cbn [bind]; unfold launch; cbv zeta; reflexivity|]. split; [vm_compute; reflexivity|]. split; [vm_compute; reflexivity|]. vm_compute. reflexivity.
Qed.
End Example_.
