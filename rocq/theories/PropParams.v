(** C52-C55: the parameter file. *)
From Coq Require Import Ascii String Reals.
From Verif Require Import Base BaseLemmas ForList Arith MParams MIo MSim MMain MSphere PText PParams PExit.
Local Open Scope nat_scope.

(** ** C53 *)
(** L is the list of lines of the text s (a last line without newline counts unless it is empty) *)
Definition is_lines (s : text) (L : list text) : Prop :=
  exists ls rest, s = joined ls rest /\ Forall one_line ls /\ one_line rest /\ L = ls ++ last_line rest.
(** every text has exactly one list of lines *)
Lemma lines_unique s : exists L, is_lines s L /\ forall L', is_lines s L' -> L' = L.
Proof.
  destruct (joined_ex s) as (ls & rest & -> & H1 & H2). exists (ls ++ last_line rest). split; [exists ls, rest; auto|].
  intros L' (ls' & rest' & E & H3 & H4 & ->). rewrite <- (lines_joined ls' rest'), <- (lines_joined ls rest) by auto. now rewrite E.
Qed.
Theorem C53_first_match b s key : forall L, is_lines s L ->
  (p_read b (Some s) key = Exit 0 /\ forall l, In l L -> forall r, ~ named l key r) \/
  (exists l1 l l2 r v, L = l1 ++ l :: l2 /\ (forall l', In l' l1 -> forall r', ~ named l' key r') /\ named l key r /\ first_word r v /\
     p_read b (Some s) key = Ok v).
Proof.
  intros L (ls & rest & -> & H1 & H2 & ->). cbn [p_read]. rewrite lines_joined by auto.
  destruct (first_named (ls ++ last_line rest) key) as [H|(l1 & l & l2 & r & E & N & F)].
  - left. split; [now apply read_lines_missing|auto].
  - right. exists l1, l, l2, r, (word r). split; auto. split; auto. split; auto. split; [apply word_spec|]. rewrite E. now apply read_lines_found.
Qed.
(** a line has one name only, so a key is never confused with a longer one *)
Theorem C53_one_name l key r key' r' : named l key r -> named l key' r' -> key = key' /\ r = r'.
Proof.
  intros (K & H) (K' & H').
  assert (G : forall a b, ~ In sp_char a -> ~ In sp_char b -> forall x y, a ++ sp_char :: x = b ++ sp_char :: y -> a = b /\ x = y).
  { induction a as [|c a IH]; intros [|d b] A B x y E; cbn [app] in E; [|injection E as E0 E..].
    - injection E as E. auto.
    - exfalso. apply B. left. auto.
    - exfalso. apply A. left. auto.
    - destruct (IH b) with (x := x) (y := y) as [-> ->]; auto; try (intros ?; apply A; now right); try (intros ?; apply B; now right). split; congruence. }
  assert (M : forall a x, In sp_char (a ++ sp_char :: x)) by (intros; apply in_or_app; right; now left).
  destruct H as [->|[-> ->]], H' as [H'|[H' ->]].
  - apply G; auto.
  - exfalso. apply K'. rewrite <- H'. apply M.
  - exfalso. apply K. rewrite H'. apply M.
  - auto.
Qed.
(** the value is determined *)
Theorem C53_word_unique s v v' : first_word s v -> first_word s v' -> v = v'.
Proof. intros H H'. apply first_word_word in H, H'. congruence. Qed.
Theorem C53_missing b s key : (forall L l r, is_lines s L -> In l L -> ~ named l key r) -> p_read b (Some s) key = Exit 0.
Proof.
  intros H. destruct (lines_unique s) as (L & HL & _). destruct (C53_first_match b s key L HL) as [[E _]|(l1 & l & l2 & r & v & E & _ & N & _)]; auto.
  exfalso. apply (H L l r HL); auto. rewrite E. apply in_or_app. right. now left.
Qed.
Theorem C53_found b s key L l1 l l2 r v : is_lines s L -> L = l1 ++ l :: l2 -> (forall l' r', In l' l1 -> ~ named l' key r') -> named l key r -> first_word r v ->
  p_read b (Some s) key = Ok v.
Proof.
  intros (ls & rest & -> & H1 & H2 & ->) E F N W. cbn [p_read]. rewrite lines_joined by auto. rewrite E.
  rewrite (read_lines_found l1 l l2 key r); auto. now rewrite (first_word_word r v W).
Qed.

(** ** C52 *)
Definition name_ok (n : text) : Prop := ~ In sp_char n /\ ~ In nl_char n.
Definition value_ok (v : pyval) : Prop := match v with Scalar s => ~ In nl_char s | PList l => Forall (fun s => ~ In nl_char s) l end.
(** attributes of the launcher's object: a Python dictionary (distinct names); nothing contains a newline *)
Definition attrs_ok (attrs : list (text * pyval)) : Prop :=
  NoDup (map fst attrs) /\ Forall (fun a => name_ok (fst a) /\ value_ok (snd a)) attrs.

Definition body (a : text * pyval) : text := match snd a with Scalar s => fst a ++ sp_char :: s | PList l => fst a ++ concat (map (fun x => sp_char :: x) l) end.
Lemma write_joined attrs : write_sim_params attrs = joined (map body attrs) [].
Proof.
  unfold write_sim_params, joined. rewrite app_nil_r, map_map. f_equal. apply map_ext. intros [n v]. unfold body, param_line. cbn [fst snd].
  destruct v; cbn [app]; rewrite <- app_assoc; reflexivity.
Qed.
Lemma nl_sp : nl_char <> sp_char. Proof. discriminate. Qed.
Lemma body_line a : name_ok (fst a) -> value_ok (snd a) -> one_line (body a).
Proof.
  destruct a as [n v]. unfold body, one_line. cbn [fst snd]. intros [_ N] V. destruct v as [s|l]; cbn in V; rewrite in_app_iff.
  - intros [H|[H|H]]; auto. now apply (not_eq_sym nl_sp) in H.
  - intros [H|H]; auto. apply in_concat in H. destruct H as (x & Hx & H). apply in_map_iff in Hx. destruct Hx as (y & <- & Hy). rewrite Forall_forall in V.
    destruct H as [H|H]; [now apply (not_eq_sym nl_sp) in H|]. apply (V y Hy H).
Qed.
Lemma body_named a key r : name_ok (fst a) -> named (body a) key r -> key = fst a.
Proof.
  destruct a as [n v]. cbn [fst]. intros [N _] H. assert (exists r', named (body (n, v)) n r') as (r' & H').
  { unfold body. cbn [fst snd]. destruct v as [s|[|x l]].
    - exists s. split; auto.
    - exists []. split; auto. right. cbn [map concat]. rewrite app_nil_r. auto.
    - exists (x ++ concat (map (fun x => sp_char :: x) l)). split; auto. }
  destruct (C53_one_name _ _ _ _ _ H H'). auto.
Qed.
Lemma read_attr b attrs a r v : attrs_ok attrs -> In a attrs -> named (body a) (fst a) r -> first_word r v -> p_read b (Some (write_sim_params attrs)) (fst a) = Ok v.
Proof.
  intros [ND HF] Ha N W. apply in_split in Ha. destruct Ha as (l1 & l2 & ->). rewrite write_joined.
  rewrite Forall_forall in HF.
  apply (C53_found b _ (fst a) (map body (l1 ++ a :: l2)) (map body l1) (body a) (map body l2) r v); auto.
  - exists (map body (l1 ++ a :: l2)), []. split; auto. split; [|split; [intros []|now rewrite app_nil_r]].
    apply Forall_forall. intros x Hx. apply in_map_iff in Hx. destruct Hx as (y & <- & Hy). apply body_line; apply HF; auto.
  - now rewrite map_app.
  - intros l' r' Hl' N'. apply in_map_iff in Hl'. destruct Hl' as (y & <- & Hy). apply body_named in N'; [|apply HF; apply in_or_app; auto].
    rewrite map_app in ND. cbn [map] in ND. apply NoDup_remove_2 in ND. apply ND. rewrite N'. apply in_or_app. left. now apply in_map.
Qed.
(** every scalar attribute without white space in its text is read back exactly *)
Theorem C52_read_back b attrs name v : attrs_ok attrs -> In (name, Scalar v) attrs -> solid v -> p_read b (Some (write_sim_params attrs)) name = Ok v.
Proof.
  intros H Hi Hv. assert (HN : name_ok name) by (destruct H as [_ H]; rewrite Forall_forall in H; apply (H _ Hi)).
  apply (read_attr b attrs (name, Scalar v) v v H Hi).
  - split; [apply HN|]. left. reflexivity.
  - exists [], []. rewrite app_nil_r. split; auto. split; [intros ? []|]. auto.
Qed.
(** a scalar with white space is cut there; of a list the first element is returned; an empty list gives nothing *)
Theorem C52_cut b attrs name : attrs_ok attrs ->
  (forall s v, In (name, Scalar s) attrs -> first_word s v -> p_read b (Some (write_sim_params attrs)) name = Ok v) /\
  (forall x l, In (name, PList (x :: l)) attrs -> solid x -> x <> [] -> p_read b (Some (write_sim_params attrs)) name = Ok x) /\
  (In (name, PList []) attrs -> p_read b (Some (write_sim_params attrs)) name = Ok []).
Proof.
  intros H. split; [|split].
  - intros s v Hi W. assert (HN : name_ok name) by (destruct H as [_ H]; rewrite Forall_forall in H; apply (H _ Hi)).
    apply (read_attr b attrs (name, Scalar s) s v H Hi); auto. split; [apply HN|]. now left.
  - intros x l Hi Hx Nx. assert (HN : name_ok name) by (destruct H as [_ H]; rewrite Forall_forall in H; apply (H _ Hi)).
    apply (read_attr b attrs (name, PList (x :: l)) (x ++ concat (map (fun x => sp_char :: x) l)) x H Hi).
    + split; [apply HN|]. now left.
    + exists [], (concat (map (fun x => sp_char :: x) l)). split; auto. split; [intros ? []|]. split; auto. split; [|intros; contradiction].
      destruct l as [|y l]; [now left|right]. cbn [map concat app]. eauto.
  - intros Hi. assert (HN : name_ok name) by (destruct H as [_ H]; rewrite Forall_forall in H; apply (H _ Hi)).
    apply (read_attr b attrs (name, PList []) [] [] H Hi).
    + split; [apply HN|]. right. unfold body. cbn [fst snd map concat]. now rewrite app_nil_r.
    + exists [], []. split; auto. split; [intros ? []|]. split; [intros ? []|]. auto.
Qed.
Theorem C52_integers b attrs name z : attrs_ok attrs -> In (name, Scalar (dec z)) attrs -> (- 2 ^ 31 <= z < 2 ^ 31)%Z ->
  (let! s := p_read b (Some (write_sim_params attrs)) name in stoi s) = Ok z.
Proof. intros H Hi B. rewrite (C52_read_back b attrs name (dec z)); auto; [|apply dec_solid]. cbn [bind]. apply stoi_in; auto. apply dec_int. Qed.
Theorem C52_absent b attrs name : attrs_ok attrs -> ~ In name (map fst attrs) -> p_read b (Some (write_sim_params attrs)) name = Exit 0.
Proof.
  intros [_ HF] Hn. apply C53_missing. rewrite write_joined. intros L l r HL Hl N. rewrite Forall_forall in HF.
  destruct (lines_unique (joined (map body attrs) [])) as (L0 & _ & U). assert (E : L = map body attrs).
  { rewrite (U L HL). symmetry. apply U. exists (map body attrs), []. split; auto. split; [|split; [intros []|now rewrite app_nil_r]].
    apply Forall_forall. intros x Hx. apply in_map_iff in Hx. destruct Hx as (y & <- & Hy). apply body_line; apply HF; auto. }
  rewrite E in Hl. apply in_map_iff in Hl. destruct Hl as (y & <- & Hy). apply body_named in N; [|apply HF; auto]. apply Hn. rewrite N. now apply in_map.
Qed.

(** the parameters the solver asks for *)
Definition size_keys : list string := ["nt"; "nx"; "nl"; "nm"; "nlat"; "nphi"; "t_step_save"]%string.
Definition int_keys : list string := ["l_ang"; "m_ang"]%string.
Definition real_keys : list string := ["dt"; "compactification_length"; "Rmax"; "Rmin"; "black_hole_mass"; "black_hole_spin";
  "km1"; "k0"; "k1"; "k2"; "V2"; "V3"; "V4"; "amp"; "rl"; "ru"]%string.
Definition text_keys : list string := ["initial_data_type"; "initial_data_direction"]%string.
Definition required : list string := size_keys ++ int_keys ++ real_keys ++ text_keys.

Section Make.
Context {F : Type} {AF : Arith F}.
Variable stod_ : text -> option F.
Definition assemble (n : string -> nat) (z : string -> Z) (x : string -> F) (t : string -> text) : params F :=
  (Par (n "nt") (n "nx") (n "nl") (n "nm") (n "nlat") (n "nphi") (n "t_step_save")
    (x "dt") (x "compactification_length") (x "Rmax") (x "Rmin") (x "black_hole_mass") (x "black_hole_spin")
    (x "km1") (x "k0") (x "k1") (x "k2") (x "V2") (x "V3") (x "V4") (t "initial_data_type") (t "initial_data_direction")
    (x "amp") (x "rl") (x "ru") (z "l_ang") (z "m_ang"))%string.
(** the whole object is read back from a file the launcher wrote *)
Theorem C52_all_parameters b attrs (z : string -> Z) (x : string -> F) (t : string -> text) : attrs_ok attrs ->
  (forall k, In k size_keys -> In (txt k, Scalar (dec (z k))) attrs /\ (0 <= z k < 2 ^ 31)%Z) ->
  (forall k, In k int_keys -> In (txt k, Scalar (dec (z k))) attrs /\ (- 2 ^ 31 <= z k < 2 ^ 31)%Z) ->
  (forall k, In k real_keys -> exists s, In (txt k, Scalar s) attrs /\ solid s /\ stod_ s = Some (x k)) ->
  (forall k, In k text_keys -> In (txt k, Scalar (t k)) attrs /\ solid (t k)) ->
  Params_make stod_ b (Some (write_sim_params attrs)) = Ok (assemble (fun k => Z.to_nat (z k)) z x t).
Proof.
  intros H Hn Hz Hx Ht. set (file := Some (write_sim_params attrs)).
  assert (RN : forall k, In k size_keys -> (let! s := p_read b file (txt k) in stoi s) = Ok (z k) /\ to_size (z k) = Z.to_nat (z k)).
  { intros k Hk. destruct (Hn k Hk) as [A B]. split; [apply C52_integers; auto; lia|]. unfold to_size, u64. rewrite Z.mod_small by lia. reflexivity. }
  assert (RZ : forall k, In k int_keys -> (let! s := p_read b file (txt k) in stoi s) = Ok (z k)) by (intros k Hk; destruct (Hz k Hk); now apply C52_integers).
  assert (RX : forall k, In k real_keys -> (let! s := p_read b file (txt k) in stod stod_ s) = Ok (x k)).
  { intros k Hk. destruct (Hx k Hk) as (s & A & B & C). unfold file. rewrite (C52_read_back b attrs (txt k) s) by auto. cbn [bind]. unfold stod. now rewrite C. }
  assert (RT : forall k, In k text_keys -> p_read b file (txt k) = Ok (t k)) by (intros k Hk; destruct (Ht k Hk); now apply C52_read_back).
  clearbody file. unfold Params_make. cbv zeta. unfold size_keys, int_keys, real_keys, text_keys in *.
  cbv beta.
  rewrite (proj1 (RN "nt"%string ltac:(cbn; tauto))), (proj1 (RN "nx"%string ltac:(cbn; tauto))), (proj1 (RN "nl"%string ltac:(cbn; tauto))), (proj1 (RN "nm"%string ltac:(cbn; tauto))),
    (proj1 (RN "nlat"%string ltac:(cbn; tauto))), (proj1 (RN "nphi"%string ltac:(cbn; tauto))), (proj1 (RN "t_step_save"%string ltac:(cbn; tauto))).
  cbn [bind].
  Ltac one RX RT RZ := match goal with |- bind (bind (p_read ?b ?f (txt ?k)) _) _ = _ => first [rewrite (RX k ltac:(cbn; tauto)) | rewrite (RZ k ltac:(cbn; tauto))]
    | |- bind (p_read ?b ?f (txt ?k)) _ = _ => rewrite (RT k ltac:(cbn; tauto)) end; cbn [bind].
  do 20 one RX RT RZ.
  unfold assemble. rewrite !(fun k H => proj2 (RN k H)) by (cbn; tauto). reflexivity.
Qed.
End Make.

(** ** C54 *)
Definition missing (s key : text) : Prop := forall L l r, is_lines s L -> In l L -> ~ named l key r.
Definition value_of (s key v : text) : Prop :=
  exists L l1 l l2 r, is_lines s L /\ L = l1 ++ l :: l2 /\ (forall l' r', In l' l1 -> ~ named l' key r') /\ named l key r /\ first_word r v.
Theorem C53_spec b s key : (forall v, p_read b (Some s) key = Ok v <-> value_of s key v) /\ (p_read b (Some s) key = Exit 0 <-> missing s key) /\
  (missing s key \/ exists v, value_of s key v).
Proof.
  destruct (lines_unique s) as (L & HL & U).
  assert (M : missing s key -> p_read b (Some s) key = Exit 0) by (intros M; now apply C53_missing).
  assert (V : forall v, value_of s key v -> p_read b (Some s) key = Ok v).
  { intros v (L' & l1 & l & l2 & r & H1 & H2 & H3 & H4 & H5). eapply C53_found; eauto. }
  destruct (C53_first_match b s key L HL) as [[E N]|(l1 & l & l2 & r & v & E & N1 & N2 & W & EP)].
  - assert (Ms : missing s key) by (intros L' l r HL' Hl; rewrite (U L' HL') in Hl; auto).
    split; [intros v; split; [congruence|apply V]|]. split; [split; auto|auto].
  - assert (Vs : value_of s key v) by (exists L, l1, l, l2, r; split; auto).
    split; [intros v'; split; [intros E'; rewrite EP in E'; injection E' as <-; auto|apply V]|]. split; [split; [congruence|auto]|eauto].
Qed.

Section Missing.
Context {F : Type} {AF : Arith F}.
Variable stod_ : text -> option F.
(** every value that is present can be converted *)
Definition convertible (s : text) : Prop :=
  (forall k v, In k (size_keys ++ int_keys) -> value_of s (txt k) v -> exists z, int_text v z /\ (- 2 ^ 31 <= z < 2 ^ 31)%Z) /\
  (forall k v, In k real_keys -> value_of s (txt k) v -> stod_ v <> None).
Lemma make_missing b s : (exists k, In k required /\ missing s (txt k)) -> convertible s -> Params_make stod_ b (Some s) = Exit 0.
Proof.
  intros (k0 & Hk0 & Mk0) [CI CR]. set (file := Some s).
  assert (RI : forall k, In k (size_keys ++ int_keys) -> (let! v := p_read b file (txt k) in stoi v) = Exit 0 \/ (~ missing s (txt k) /\ exists z, (let! v := p_read b file (txt k) in stoi v) = Ok z)).
  { intros k Hk. destruct (C53_spec b s (txt k)) as (SV & SM & [M|(v & V)]).
    - left. unfold file. rewrite (proj2 SM M). reflexivity.
    - right. split; [intros M; apply SM in M; apply SV in V; congruence|]. destruct (CI k v Hk V) as (z & Hz & B). exists z. unfold file. rewrite (proj2 (SV v) V). cbn [bind]. now apply stoi_in. }
  assert (RX : forall k, In k real_keys -> (let! v := p_read b file (txt k) in stod stod_ v) = Exit 0 \/ (~ missing s (txt k) /\ exists x, (let! v := p_read b file (txt k) in stod stod_ v) = Ok x)).
  { intros k Hk. destruct (C53_spec b s (txt k)) as (SV & SM & [M|(v & V)]).
    - left. unfold file. rewrite (proj2 SM M). reflexivity.
    - right. split; [intros M; apply SM in M; apply SV in V; congruence|]. unfold file. rewrite (proj2 (SV v) V). cbn [bind]. unfold stod.
      destruct (stod_ v) eqn:E; [eauto|]. exfalso. eapply CR; eauto. }
  assert (RT : forall k, In k text_keys -> p_read b file (txt k) = Exit 0 \/ (~ missing s (txt k) /\ exists v, p_read b file (txt k) = Ok v)).
  { intros k Hk. destruct (C53_spec b s (txt k)) as (SV & SM & [M|(v & V)]).
    - left. apply (proj2 SM M).
    - right. split; [intros M; apply SM in M; apply SV in V; congruence|]. exists v. apply (proj2 (SV v) V). }
  assert (K0 : forall k, ~ missing s (txt k) -> k <> k0) by (intros k N ->; auto).
  clearbody file. unfold Params_make. cbv zeta. cbv beta.
  Ltac step1 RI RX RT K0 := match goal with
    | |- bind (bind (p_read ?b ?f (txt ?k)) _) _ = _ =>
      let N := fresh "N" in let a := fresh "a" in let E := fresh "E" in
      first [destruct (RI k ltac:(cbn; tauto)) as [E|(N & a & E)] | destruct (RX k ltac:(cbn; tauto)) as [E|(N & a & E)]]; rewrite E; cbn [bind]; [reflexivity|apply K0 in N; clear E]
    | |- bind (p_read ?b ?f (txt ?k)) _ = _ =>
      let N := fresh "N" in let a := fresh "a" in let E := fresh "E" in
      destruct (RT k ltac:(cbn; tauto)) as [E|(N & a & E)]; rewrite E; cbn [bind]; [reflexivity|apply K0 in N; clear E] end.
  do 27 step1 RI RX RT K0.
  exfalso. revert Hk0. cbn [In required app size_keys int_keys real_keys text_keys]. intuition congruence.
Qed.
Lemma make_ok_all b s par : Params_make stod_ b (Some s) = Ok par ->
  exists (z : string -> Z) x t, par = assemble (fun k => to_size (z k)) z x t /\
    (forall k, In k (size_keys ++ int_keys) -> exists v, value_of s (txt k) v /\ stoi v = Ok (z k)) /\
    (forall k, In k real_keys -> exists v, value_of s (txt k) v /\ stod_ v = Some (x k)) /\
    (forall k, In k text_keys -> value_of s (txt k) (t k)).
Proof.
  intros E.
  set (z := fun k => match (let! v := p_read b (Some s) (txt k) in stoi v) with Ok z => z | _ => 0%Z end).
  set (x := fun k => match (let! v := p_read b (Some s) (txt k) in stod stod_ v) with Ok x => x | _ => f0 end).
  set (t := fun k => match p_read b (Some s) (txt k) with Ok t => t | _ => [] end).
  exists z, x, t.
  assert (HI : forall k a, (let! v := p_read b (Some s) (txt k) in stoi v) = Ok a -> z k = a /\ exists v, value_of s (txt k) v /\ stoi v = Ok (z k)).
  { intros k a H. unfold z at 1. rewrite H. split; auto. destruct (p_read b (Some s) (txt k)) as [v| | | |] eqn:EV; try discriminate. cbn [bind] in H. exists v. split; auto.
    apply (proj1 (C53_spec b s (txt k))); auto. unfold z. rewrite EV. cbn [bind]. now rewrite H. }
  assert (HX : forall k a, (let! v := p_read b (Some s) (txt k) in stod stod_ v) = Ok a -> x k = a /\ exists v, value_of s (txt k) v /\ stod_ v = Some (x k)).
  { intros k a H. unfold x at 1. rewrite H. split; auto. destruct (p_read b (Some s) (txt k)) as [v| | | |] eqn:EV; try discriminate. cbn [bind] in H. exists v. split.
    - apply (proj1 (C53_spec b s (txt k))); auto.
    - unfold x. rewrite EV. cbn [bind]. rewrite H. unfold stod in H. destruct (stod_ v); congruence. }
  assert (HT : forall k a, p_read b (Some s) (txt k) = Ok a -> t k = a /\ value_of s (txt k) (t k)).
  { intros k a H. unfold t. rewrite H. split; auto. apply (proj1 (C53_spec b s (txt k))); auto. }
  clearbody z x t. unfold Params_make in E. cbv zeta in E. cbv beta in E.
  Ltac step2 HI HX HT E := match type of E with
    | bind (bind (p_read ?b ?f (txt ?k)) ?g) _ = _ => let a := fresh "a" in let H := fresh "H" in let E1 := fresh "E" in let E2 := fresh "E" in let P := fresh "P" in
      destruct (bind (p_read b f (txt k)) g) as [a| | | |] eqn:H; try discriminate; cbn [bind] in E; first [apply HI in H | apply HX in H]; destruct H as [E1 H]
    | bind (p_read ?b ?f (txt ?k)) _ = _ => let a := fresh "a" in let H := fresh "H" in let E1 := fresh "E" in
      destruct (p_read b f (txt k)) as [a| | | |] eqn:H; try discriminate; cbn [bind] in E; apply HT in H; destruct H as [E1 H] end.
  do 27 step2 HI HX HT E. injection E as <-. subst. split; [reflexivity|].
  split; [|split]; intros k Hk; cbn [In size_keys int_keys real_keys text_keys app] in Hk; intuition (subst; assumption).
Qed.

(** a required key is absent (and what is present can be converted): the whole program ends with status 0;
    if something present cannot be converted, it either ends so or throws; it never gets past the parameters *)
Theorem C54_missing_exit_zero b s : (exists k, In k required /\ missing s (txt k)) -> convertible s ->
  forall fmt s1 s2 h dir fs, main (F := F) fmt stod_ s1 s2 b h (Some s) dir fs = Exit 0.
Proof.
  intros H C. pose proof (make_missing b s H C) as E. intros. pose proof (main_plain fmt stod_ s1 s2 b h (Some s) dir fs) as M. rewrite E in M. exact M.
Qed.
Theorem C54_never_starts b s k : In k required -> missing s (txt k) ->
  forall fmt s1 s2 h dir fs, let r := main (F := F) fmt stod_ s1 s2 b h (Some s) dir fs in r = Exit 0 \/ r = Throw.
Proof.
  intros Hk Mk fmt s1 s2 h dir fs r.
  assert (NM : forall par, Params_make stod_ b (Some s) <> Ok par).
  { intros par E. apply make_ok_all in E. destruct E as (z & x & t & _ & H1 & H2 & H3).
    assert (exists v, value_of s (txt k) v) as (v & V).
    { unfold required in Hk. rewrite !in_app_iff in Hk. destruct Hk as [Hk|[Hk|[Hk|Hk]]].
      - destruct (H1 k) as (v & V & _); [apply in_or_app; auto|eauto].
      - destruct (H1 k) as (v & V & _); [apply in_or_app; auto|eauto].
      - destruct (H2 k Hk) as (v & V & _). eauto.
      - eauto. }
    destruct (C53_spec b s (txt k)) as (SV & SM & _). apply SV in V. apply SM in Mk. congruence. }
  assert (OUT : Params_make stod_ b (Some s) = Exit 0 \/ Params_make stod_ b (Some s) = Throw).
  { assert (P1 : forall key, (exists v, p_read b (Some s) key = Ok v) \/ p_read b (Some s) key = Exit 0).
    { intros key. destruct (C53_spec b s key) as (SV & SM & [M|(v & V)]); [right; now apply SM|left; exists v; now apply SV]. }
    assert (P2 : forall key, let r := (let! v := p_read b (Some s) key in stoi v) in (exists z, r = Ok z) \/ r = Exit 0 \/ r = Throw).
    { intros key r0. unfold r0. destruct (P1 key) as [(v & ->)| ->]; cbn [bind]; auto. unfold stoi. destruct (signed_digits _); auto. destruct (_ && _)%bool; eauto. }
    assert (P3 : forall key, let r := (let! v := p_read b (Some s) key in stod stod_ v) in (exists z, r = Ok z) \/ r = Exit 0 \/ r = Throw).
    { intros key r0. unfold r0. destruct (P1 key) as [(v & ->)| ->]; cbn [bind]; auto. unfold stod. destruct (stod_ v); eauto. }
    revert NM. unfold Params_make. cbv zeta beta.
    assert (G : forall A (m : res A) (k : A -> res (params F)), ((exists z, m = Ok z) \/ m = Exit 0 \/ m = Throw) -> (forall a, (forall par, k a <> Ok par) -> k a = Exit 0 \/ k a = Throw) ->
      (forall par, bind m k <> Ok par) -> bind m k = Exit 0 \/ bind m k = Throw).
    { intros A m kk [(z & ->)|[-> | ->]] Hkk; cbn [bind]; auto. }
    repeat (apply G; [first [apply P2 | apply P3 | destruct (P1 (txt "initial_data_type")) as [?| ->]; now auto | destruct (P1 (txt "initial_data_direction")) as [?| ->]; now auto]|intros ?]).
    intros H. exfalso. eapply H. reflexivity. }
  pose proof (main_plain fmt stod_ s1 s2 b h (Some s) dir fs) as M. unfold r. destruct OUT as [E|E]; rewrite E in M; auto.
Qed.
(** a file that cannot be opened: debug builds abort, release builds end with status 0 *)
Theorem C54_unreadable b : forall fmt s1 s2 h dir fs, main (F := F) fmt stod_ s1 s2 b h None dir fs = if ndebug b then Exit 0 else Abort.
Proof. intros. unfold main, main_init, Params_make, p_read. destruct (ndebug b); reflexivity. Qed.
(** conversely an early end of the process, or an exception, comes only from reading the parameters: before
    any grid is built and before any file is opened for writing *)
Theorem C54_only_there b file fmt s1 s2 h dir fs : let r := main (F := F) fmt stod_ s1 s2 b h file dir fs in
  (forall c, r = Exit c -> c = 0%Z /\ Params_make stod_ b file = Exit 0 /\ forall s, file = Some s -> exists k, In k required /\ missing s (txt k)) /\
  (r = Throw -> Params_make stod_ b file = Throw).
Proof.
  intros r. pose proof (main_plain fmt stod_ s1 s2 b h file dir fs) as M. fold r in M.
  destruct (Params_make stod_ b file) as [par| | | |c] eqn:E.
  - split; [intros c H|intros H]; rewrite H in M; destruct M.
  - destruct M.
  - rewrite M. split; [discriminate|discriminate].
  - split; auto. rewrite M. discriminate.
  - rewrite M. split; [|discriminate]. intros c' H. injection H as <-.
    assert (C0 : c = 0%Z /\ forall s, file = Some s -> exists k, In k required /\ missing s (txt k)).
    { assert (P1 : forall k, In k required -> forall c, p_read b file (txt k) = Exit c -> c = 0%Z /\ forall s, file = Some s -> exists k, In k required /\ missing s (txt k)).
      { intros k Hk c0 EK. destruct file as [s|].
        - destruct (C53_spec b s (txt k)) as (SV & SM & [Mk|(v & V)]); [|apply SV in V; congruence]. assert (c0 = 0%Z) by (apply SM in Mk; congruence). split; auto. intros s' Hs'. injection Hs' as <-. eauto.
        - unfold p_read in EK. destruct (ndebug b); [|discriminate]. split; [congruence|]. discriminate. }
      assert (P2 : forall k, In k required -> forall c, (let! v := p_read b file (txt k) in stoi v) = Exit c -> c = 0%Z /\ forall s, file = Some s -> exists k, In k required /\ missing s (txt k)).
      { intros k Hk c0 EK. destruct (p_read b file (txt k)) eqn:EP; cbn [bind] in EK; try discriminate; [|injection EK as ->; eapply P1; eauto].
        unfold stoi in EK. destruct (signed_digits _) in EK; [|discriminate]. destruct (_ && _)%bool in EK; discriminate. }
      assert (P3 : forall k, In k required -> forall c, (let! v := p_read b file (txt k) in stod stod_ v) = Exit c -> c = 0%Z /\ forall s, file = Some s -> exists k, In k required /\ missing s (txt k)).
      { intros k Hk c0 EK. destruct (p_read b file (txt k)) eqn:EP; cbn [bind] in EK; try discriminate; [|injection EK as ->; eapply P1; eauto].
        unfold stod in EK. destruct (stod_ a); discriminate. }
      clear M. revert E. unfold Params_make. cbv zeta beta.
      assert (G : forall A (m : res A) (k : A -> res (params F)) (Q : Prop), (m = Exit c -> Q) -> (forall a, k a = Exit c -> Q) -> bind m k = Exit c -> Q).
      { intros A [a| | | |c0] kk Q HQ HK; cbn [bind]; intros E0; try discriminate; [eauto|]. apply HQ. injection E0 as ->. reflexivity. }
      repeat (apply G; [first [apply P2 | apply P3 | apply P1]; cbn; tauto|intros ?]). discriminate. }
    destruct C0 as [-> C0]. auto.
Qed.

(** ** C55 *)
(** what is stored: every integer parameter comes from a text of the form [int_text] with a value in the
    range of int; a size parameter holds that value, or 2^64 plus it when it is negative *)
Theorem C55_stored b s par : Params_make stod_ b (Some s) = Ok par ->
  exists (z : string -> Z) x t, 
    (forall k, In k (size_keys ++ int_keys) -> exists v, value_of s (txt k) v /\ int_text v (z k) /\ (- 2 ^ 31 <= z k < 2 ^ 31)%Z) /\
    par = assemble (fun k => Z.to_nat (if (0 <=? z k)%Z then z k else 2 ^ 64 + z k)) z x t.
Proof.
  intros E. apply make_ok_all in E. destruct E as (z & x & t & -> & H1 & H2 & H3). exists z, x, t.
  assert (R : forall k, In k (size_keys ++ int_keys) -> exists v, value_of s (txt k) v /\ int_text v (z k) /\ (- 2 ^ 31 <= z k < 2 ^ 31)%Z).
  { intros k Hk. destruct (H1 k Hk) as (v & V & S). exists v. split; auto. destruct (int_text_dec v) as [(y & Hy)|N]; [|rewrite (stoi_none v N) in S; discriminate].
    rewrite (stoi_text v y Hy) in S. destruct (Z.leb_spec (- 2 ^ 31) y), (Z.ltb_spec y (2 ^ 31)); cbn [andb] in S; try discriminate. injection S as <-. auto. }
  split; auto.
  assert (U : forall k, In k size_keys -> to_size (z k) = Z.to_nat (if (0 <=? z k)%Z then z k else 2 ^ 64 + z k)).
  { intros k Hk. destruct (R k) as (v & _ & _ & B); [apply in_or_app; auto|]. unfold to_size, u64. f_equal. destruct (Z.leb_spec 0 (z k)); [apply Z.mod_small; lia|].
    symmetry. apply Z.mod_unique with (q := (-1)%Z); lia. }
  unfold assemble. rewrite !U by (cbn; tauto). reflexivity.
Qed.
End Missing.
(** the conversion of one text: prefix, sign, range *)
Theorem C55_accepts s z : int_text s z -> stoi s = (if ((- 2 ^ 31 <=? z) && (z <? 2 ^ 31))%Z%bool then Ok z else Throw).
Proof. apply stoi_text. Qed.
Theorem C55_rejects s : (forall z, ~ int_text s z) -> stoi s = Throw.
Proof. apply stoi_none. Qed.
Theorem C55_one_value s z z' : int_text s z -> int_text s z' -> z = z'.
Proof.
  intros (l & sg & k & ds & r & E & B & S & N & M & ->) (l' & sg' & k' & ds' & r' & E' & B' & S' & N' & M' & ->).
  pose proof (signed_value l sg k ds r B S N M) as V. pose proof (signed_value l' sg' k' ds' r' B' S' N' M') as V'. rewrite <- E in V. rewrite <- E' in V'. congruence.
Qed.
Lemma nodigit c : digit c = None -> ~ is_digit c.
Proof. intros H D. rewrite digit_is in H by auto. discriminate. Qed.
Ltac dg := split; [discriminate|]; intros ?c ?Hc; cbn [txt list_ascii_of_string In] in *;
  repeat match goal with H : _ \/ _ |- _ => destruct H as [<-|H] end; try tauto;
  match goal with |- is_digit ?c => let v := eval vm_compute in (nat_of_ascii c) in exists v; split; [lia|reflexivity] end.
Theorem C55_examples : int_text (txt "1e3") 1 /\ int_text (txt "8193.7") 8193 /\ int_text (txt " -12 km") (-12) /\ (forall z, ~ int_text (txt "nan") z) /\
  stoi (txt "2147483648") = Throw /\ to_size (-12) = Z.to_nat (2 ^ 64 - 12).
Proof.
  split; [|split; [|split; [|split; [|split; [vm_compute; reflexivity|reflexivity]]]]].
  - exists [], [], 1%Z, (txt "1"), (txt "e3"). split; [reflexivity|]. split; [intros ? []|]. split; [now left|]. split; [dg|]. split; [apply nodigit; reflexivity|reflexivity].
  - exists [], [], 1%Z, (txt "8193"), (txt ".7"). split; [reflexivity|]. split; [intros ? []|]. split; [now left|]. split; [dg|]. split; [apply nodigit; reflexivity|reflexivity].
  - exists (txt " "), (txt "-"), (-1)%Z, (txt "12"), (txt " km"). split; [reflexivity|]. split; [intros c [<-|[]]; reflexivity|]. split; [cbn; auto|]. split; [dg|]. split; [apply nodigit; reflexivity|reflexivity].
  - intros z (l & sg & k & ds & r & E & B & S & N & M & _). pose proof (signed_value l sg k ds r B S N M) as V. rewrite <- E in V. vm_compute in V. discriminate.
Qed.
(** ** the hypotheses are met by what the launcher writes *)
From Verif Require Import Toy.
#[local] Existing Instance Z_arith.
Definition demo_attrs : list (text * pyval) :=
  map (fun k => (txt k, Scalar (dec 9))) (size_keys ++ int_keys) ++ map (fun k => (txt k, Scalar (txt "0.5"))) real_keys ++
  map (fun k => (txt k, Scalar (txt "ingoing"))) text_keys ++ [(txt "home_dir", Scalar (txt "/home/a b")); (txt "rl_0", Scalar (txt "1.1")); (txt "ranges", PList [txt "1"; txt "2"])].
Fixpoint nodupb (l : list text) : bool := match l with [] => true | x :: l' => (negb (existsb (text_eqb x) l') && nodupb l')%bool end.
Lemma nodupb_ok l : nodupb l = true -> NoDup l.
Proof.
  induction l as [|x l IH]; intros H; [constructor|]. cbn [nodupb] in H. apply andb_true_iff in H. destruct H as [H1 H2]. constructor; auto. intros Hx.
  assert (existsb (text_eqb x) l = true) by (apply existsb_exists; exists x; split; auto; apply text_eqb_refl). rewrite H in H1. discriminate.
Qed.
Definition freeb (c : ascii) (s : text) : bool := negb (existsb (Ascii.eqb c) s).
Lemma freeb_ok c s : freeb c s = true -> ~ In c s.
Proof. unfold freeb. intros H Hx. assert (existsb (Ascii.eqb c) s = true) by (apply existsb_exists; exists c; split; auto; apply Ascii.eqb_refl). rewrite H0 in H. discriminate. Qed.
Definition attr_okb (a : text * pyval) : bool := (freeb sp_char (fst a) && freeb nl_char (fst a) && match snd a with Scalar s => freeb nl_char s | PList l => forallb (freeb nl_char) l end)%bool.
Lemma attrs_okb_ok attrs : nodupb (map fst attrs) = true -> forallb attr_okb attrs = true -> attrs_ok attrs.
Proof.
  intros H1 H2. split; [now apply nodupb_ok|]. rewrite forallb_forall in H2. apply Forall_forall. intros a Ha. apply H2 in Ha. unfold attr_okb in Ha.
  rewrite !andb_true_iff in Ha. destruct Ha as [[A B] C]. split; [split; now apply freeb_ok|]. destruct (snd a); cbn; [now apply freeb_ok|].
  rewrite forallb_forall in C. apply Forall_forall. intros x Hx. apply freeb_ok. auto.
Qed.
Example C52_C54_nonvacuous :
  attrs_ok demo_attrs /\ (exists par, Params_make (fun _ => Some 1%Z) (Build false true false) (Some (write_sim_params demo_attrs)) = Ok par /\ pr_nlat par = 9%nat) /\
  (let attrs := filter (fun a => negb (text_eqb (fst a) (txt "rl"))) demo_attrs in
   attrs_ok attrs /\ missing (write_sim_params attrs) (txt "rl") /\ convertible (fun _ => Some 1%Z) (write_sim_params attrs)).
Proof.
  split; [apply attrs_okb_ok; vm_compute; reflexivity|]. split.
  - assert (X : (match Params_make (fun _ => Some 1%Z) (Build false true false) (Some (write_sim_params demo_attrs)) with Ok p => Nat.eqb (pr_nlat p) 9 | _ => false end) = true) by (vm_compute; reflexivity).
    destruct (Params_make _ _ _) as [p| | | |]; try discriminate. exists p. split; auto. now apply Nat.eqb_eq.
  - intros attrs. assert (A : attrs_ok attrs) by (apply attrs_okb_ok; vm_compute; reflexivity). split; auto. split.
    + apply (C53_spec (Build false true false)). apply C52_absent; auto. intros H.
      assert (X : existsb (text_eqb (txt "rl")) (map fst attrs) = true) by (apply existsb_exists; exists (txt "rl"); split; auto; apply text_eqb_refl). vm_compute in X. discriminate.
    + split; [|discriminate]. intros k v Hk V. exists 9%Z. split; [|lia]. replace v with (dec 9); [apply dec_int|].
      apply (proj1 (C53_spec (Build false true false) _ _)) in V.
      assert (W : p_read (Build false true false) (Some (write_sim_params attrs)) (txt k) = Ok (dec 9)); [|congruence].
      apply C52_read_back; auto; [|apply dec_solid]. unfold attrs. apply filter_In. split; [|cbn in Hk; intuition (subst; reflexivity)].
      unfold demo_attrs. apply in_or_app. left. apply in_map_iff. exists k. auto.
Qed.
