(** C84: array-valued parameters. *)
From Coq Require Import Ascii String Reals Decimal DecimalString DecimalPos.
From Verif Require Import Base BaseLemmas ForList Arith MParams MArray MIo MSim PText PParams PropParams.
Local Open Scope nat_scope.

(** ** Specification *)
(** the text starts (after blanks) with an integer that fits; z is its value modulo 2^64, rest what follows *)
Definition size_text (s : text) (z : Z) (rest : text) : Prop :=
  exists lead sg k ds, s = lead ++ sg ++ ds ++ rest /\ blank lead /\ In (sg, k) signs /\ numeral ds /\ no_more rest /\
    (place_value ds < 2 ^ 64)%Z /\ z = ((k * place_value ds) mod 2 ^ 64)%Z.
(** the numbers a text consists of, up to the first thing that is not a number *)
Inductive numbers {T} (item : text -> T -> text -> Prop) : text -> list T -> Prop :=
| num_stop s : (forall z r, ~ item s z r) -> numbers item s []
| num_more s z r l : item s z r -> numbers item r l -> numbers item s (z :: l).
(** the file's first line with this name, without the name and the blank after it *)
Definition line_of (s key r : text) : Prop :=
  exists L l1 l l2, is_lines s L /\ L = l1 ++ l :: l2 /\ (forall l' r', In l' l1 -> ~ named l' key r') /\ named l key r.

(** ** the extraction *)
Lemma digit_run_app ds rest : (forall c, In c ds -> is_digit c) -> no_more rest -> forall acc, digit_run acc (ds ++ rest) = ((acc * 10 ^ Z.of_nat (length ds) + place_value ds)%Z, rest).
Proof.
  intros H N. induction ds as [|c ds IH]; intros acc.
  - cbn [app length place_value]. change (10 ^ Z.of_nat 0)%Z with 1%Z. replace (acc * 1 + 0)%Z with acc by lia. destruct rest as [|c rest]; cbn [digit_run]; [reflexivity|]. cbn in N. now rewrite digit_not by auto.
  - cbn [app digit_run place_value length]. rewrite digit_is by (apply H; now left). rewrite IH by (intros; apply H; now right). f_equal.
    rewrite Nat2Z.inj_succ, Z.pow_succ_r by lia. ring.
Qed.
Lemma get_size_some s z r : size_text s z r -> get_size s = Some (z, r).
Proof.
  intros (lead & sg & k & ds & -> & Hl & Hs & [Hn Hd] & Hr & Hb & ->). unfold get_size. rewrite skip_ws_app by auto. destruct ds as [|c ds]; [congruence|].
  assert (Dc : is_digit c) by (apply Hd; now left). destruct (digit_nosign c Dc) as [M P].
  pose proof (digit_run_app (c :: ds) r Hd Hr 0) as DV. rewrite Z.mul_0_l, Z.add_0_l in DV. cbn [app] in DV.
  destruct Hs as [Hs|[Hs|[Hs|[]]]]; injection Hs as <- <-.
  - cbn [app]. rewrite skip_ws_id by (apply digit_nospace; auto). rewrite M, P, (digit_is c Dc), DV. destruct (Z.ltb_spec (place_value (c :: ds)) (2 ^ 64)); [reflexivity|lia].
  - cbn [app txt list_ascii_of_string]. rewrite skip_ws_id by reflexivity. change (Ascii.eqb "+" "-") with false. change (Ascii.eqb "+" "+") with true. cbv iota.
    rewrite (digit_is c Dc), DV. destruct (Z.ltb_spec (place_value (c :: ds)) (2 ^ 64)); [reflexivity|lia].
  - cbn [app txt list_ascii_of_string]. rewrite skip_ws_id by reflexivity. change (Ascii.eqb "-" "-") with true. cbv iota.
    rewrite (digit_is c Dc), DV. destruct (Z.ltb_spec (place_value (c :: ds)) (2 ^ 64)); [reflexivity|lia].
Qed.
Lemma get_size_inv s z r : get_size s = Some (z, r) -> size_text s z r.
Proof.
  unfold get_size. intros E. assert (S : exists lead, s = lead ++ skip_ws s /\ blank lead).
  { clear E. induction s as [|c s (lead & E & B)]; [exists []; split; [reflexivity|intros ? []]|]. cbn [skip_ws]. destruct (is_space c) eqn:C; [|exists []; split; [reflexivity|intros ? []]].
    exists (c :: lead). split; [cbn [app]; now rewrite <- E|]. intros x [<-|Hx]; auto. }
  destruct S as (lead & Es & B). set (t := skip_ws s) in *. clearbody t.
  assert (N : forall sg k u, In (sg, k) signs -> t = sg ++ u ->
    match u with c :: _ => match digit c with Some _ => let '(v, r) := digit_run 0 u in if (v <? 2 ^ 64)%Z then Some (u64 (k * v), r) else None | None => None end | [] => None end = Some (z, r) ->
    size_text s z r).
  { intros sg k u Hs Et Eu. destruct u as [|c u]; [discriminate|]. destruct (digit_dec c) as [D|D]; [|now rewrite digit_not in Eu].
    rewrite (digit_is c D) in Eu. destruct (digit_prefix (c :: u)) as (ds & rest & Ec & D1 & D2). rewrite Ec, digit_run_app, Z.mul_0_l, Z.add_0_l in Eu by auto.
    destruct (Z.ltb_spec (place_value ds) (2 ^ 64)) as [Hb|]; [|discriminate]. injection Eu as <- <-. exists lead, sg, k, ds. split; [congruence|]. split; auto. split; auto. split; [|auto].
    split; auto. intros ->. cbn [app] in Ec. subst rest. contradiction. }
  destruct t as [|c t]; [discriminate|]. destruct (Ascii.eqb_spec c "-") as [->|M].
  - apply (N (txt "-") (-1)%Z t); auto. cbn; auto.
  - destruct (Ascii.eqb_spec c "+") as [->|P].
    + apply (N (txt "+") 1%Z t); auto. cbn; auto.
    + apply (N [] 1%Z (c :: t)); auto. cbn; auto.
Qed.
Theorem C84_integer s z r : get_size s = Some (z, r) <-> size_text s z r.
Proof. split; [apply get_size_inv|apply get_size_some]. Qed.
Lemma size_text_shorter s z r : size_text s z r -> length r < length s.
Proof. intros (lead & sg & k & ds & -> & _ & _ & [Hn _] & _). rewrite !app_length. destruct ds; [congruence|]. cbn [length]. lia. Qed.

(** ** the loop *)
Section Loop.
Context {T : Type}.
Variable get : text -> option (T * text).
Variable item : text -> T -> text -> Prop.
Hypothesis get_item : forall s z r, get s = Some (z, r) <-> item s z r.
Hypothesis shorter : forall s z r, item s z r -> length r < length s.
Lemma drain_numbers : forall fuel s, length s < fuel -> exists l, numbers item s l /\ forall arr, drain get fuel arr s = arr ++ l.
Proof.
  induction fuel as [|k IH]; intros s Hs; [lia|]. destruct (get s) as [[z r]|] eqn:E.
  - pose proof E as E'. apply get_item in E'. destruct (IH r) as (l & H1 & H2); [pose proof (shorter _ _ _ E'); lia|]. exists (z :: l). split; [econstructor; eauto|].
    intros arr. cbn [drain]. rewrite E, H2. now rewrite <- app_assoc.
  - exists []. split; [constructor; intros z r H; apply get_item in H; congruence|]. intros arr. cbn [drain]. rewrite E. now rewrite app_nil_r.
Qed.
Lemma numbers_det s l : numbers item s l -> forall l', numbers item s l' -> l' = l.
Proof.
  induction 1 as [s H|s z r l H1 H2 IH]; intros l' H'; inversion H' as [s' K|s' z' r' l'' K1 K2]; subst; auto.
  - exfalso. eapply H; eauto.
  - exfalso. eapply K; eauto.
  - apply get_item in H1, K1. assert (E : Some (z, r) = Some (z', r')) by congruence. injection E as <- <-. f_equal. auto.
Qed.
Lemma read_lines_array l1 l l2 key r arr : (forall l', In l' l1 -> forall r', ~ named l' key r') -> named l key r -> read_array_lines get (l1 ++ l :: l2) key arr = Ok (drain get (S (length r)) arr r).
Proof.
  intros H N. induction l1 as [|x l1 IH]; cbn [app read_array_lines].
  - destruct N as (K & [->|[-> ->]]).
    + rewrite cut_app by auto. now rewrite text_eqb_refl.
    + rewrite cut_none by auto. rewrite text_eqb_refl. f_equal. destruct (drain_numbers 1 []) as (v & Hv & E); [cbn; lia|]. cbn [length]. rewrite E.
      inversion Hv as [s' K'|s' z' r' l'' K1 K2]; subst; [now rewrite app_nil_r|]. apply shorter in K1. cbn in K1. lia.
  - assert (Nx : fst (cut sp_char x) <> key). { intros E. apply named_cut in E. destruct E as (r' & E). apply (H x (or_introl eq_refl) r' E). }
    destruct (cut sp_char x) as [nm rest]. cbn [fst] in Nx. rewrite text_eqb_neq by auto. apply IH. intros l' Hl'. apply H. now right.
Qed.
Lemma read_array_missing ls key arr : (forall l', In l' ls -> forall r', ~ named l' key r') -> read_array_lines get ls key arr = Exit 0.
Proof.
  intros H. induction ls as [|x ls IH]; [reflexivity|]. cbn [read_array_lines].
  assert (Nx : fst (cut sp_char x) <> key). { intros E. apply named_cut in E. destruct E as (r' & E). apply (H x (or_introl eq_refl) r' E). }
  destruct (cut sp_char x) as [nm rest]. cbn [fst] in Nx. rewrite text_eqb_neq by auto. apply IH. intros l' Hl'. apply H. now right.
Qed.
(** every outcome of reading an array: the numbers of the first line with that name, in order, behind what the
    array held; or the program ends with status zero because no line has that name *)
Lemma read_array_spec b s key arr :
  (missing s key /\ p_read_array get b (Some s) key arr = Exit 0) \/
  (exists r l, line_of s key r /\ numbers item r l /\ p_read_array get b (Some s) key arr = Ok (arr ++ l)).
Proof.
  destruct (lines_unique s) as (L & HL & HU). pose proof HL as HL'. destruct HL' as (ls & rest & E & H1 & H2 & EL). cbn [p_read_array].
  assert (EL' : lines s = L) by (rewrite E, lines_joined by auto; auto). rewrite EL'.
  destruct (first_named L key) as [H|(l1 & l & l2 & r & EE & N & FN)].
  - left. split; [|now apply read_array_missing]. intros L' l r HL2 Hl. rewrite (HU L' HL2) in Hl. now apply H.
  - right. destruct (drain_numbers (S (length r)) r) as (v & Hv & Ed); [lia|]. exists r, v. split; [exists L, l1, l, l2; auto|]. split; auto.
    rewrite EE, (read_lines_array l1 l l2 key r arr) by auto. now rewrite Ed.
Qed.
Lemma line_missing s key r : line_of s key r -> ~ missing s key.
Proof. intros (L & l1 & l & l2 & HL & -> & _ & N) M. apply (M _ l r HL); auto. apply in_or_app. right. now left. Qed.
Lemma line_unique s key r r' : line_of s key r -> line_of s key r' -> r = r'.
Proof.
  intros (L & l1 & l & l2 & HL & E & H & N) (L' & l1' & l' & l2' & HL' & E' & H' & N'). destruct (lines_unique s) as (L0 & _ & U). rewrite (U L HL) in E. rewrite (U L' HL') in E'. rewrite E in E'. clear -H H' N N' E'.
  revert l1' H' E'. induction l1 as [|x l1 IH]; intros [|x' l1'] H' E'; cbn [app] in E'; injection E' as E0 E1.
  - rewrite E0 in N. destruct (C53_one_name _ _ _ _ _ N N'); auto.
  - exfalso. apply (H' l r); auto. left. auto.
  - exfalso. apply (H l' r'); auto. left. auto.
  - apply (IH ltac:(intros ? ? ?; apply H; now right) l1'); auto. intros ? ? ?. apply H'. now right.
Qed.
Lemma read_array_ok b s key arr r l : line_of s key r -> numbers item r l -> p_read_array get b (Some s) key arr = Ok (arr ++ l).
Proof.
  intros H N. destruct (read_array_spec b s key arr) as [[M _]|(r' & l' & H' & N' & E)]; [exfalso; eapply line_missing; eauto|].
  rewrite (line_unique _ _ _ _ H' H) in N'. rewrite E, (numbers_det _ _ N _ N'). reflexivity.
Qed.
End Loop.

(** ** C84 *)
(** Every outcome. *)
Theorem C84_spec b s key arr :
  (read_array_size b (Some s) key arr = Exit 0 <-> missing s key) /\
  (forall res, read_array_size b (Some s) key arr = Ok res <-> exists r l, line_of s key r /\ numbers size_text r l /\ res = arr ++ l) /\
  (forall r l l', line_of s key r -> numbers size_text r l -> numbers size_text r l' -> l = l').
Proof.
  pose proof (read_array_spec get_size size_text C84_integer size_text_shorter b s key arr) as H. unfold read_array_size. split; [|split].
  - split; intros K.
    + destruct H as [[M _]|(r & l & _ & _ & E)]; auto. congruence.
    + destruct H as [[_ E]|(r & l & HL & _ & E)]; auto. exfalso. eapply line_missing; eauto.
  - intros v. split.
    + intros K. destruct H as [[_ E]|(r & l & HL & HN & E)]; [congruence|]. exists r, l. split; auto. split; auto. congruence.
    + intros (r & l & HL & HN & ->). apply (read_array_ok get_size size_text C84_integer size_text_shorter b s key arr r l); auto.
  - intros r l l' _ H1 H2. symmetry. apply (numbers_det get_size size_text C84_integer r l H1 l' H2).
Qed.
Theorem C84_unreadable b key arr : read_array_size b None key arr = if ndebug b then Exit 0 else Abort.
Proof. reflexivity. Qed.

(** what the launcher's line for a list attribute holds *)
Lemma list_line attrs name l : attrs_ok attrs -> In (name, PList l) attrs ->
  exists r, line_of (write_sim_params attrs) name r /\ (r = [] /\ l = [] \/ exists x l', l = x :: l' /\ r = x ++ concat (map (fun x => sp_char :: x) l')).
Proof.
  intros H Hi. destruct H as [ND HF]. rewrite Forall_forall in HF. assert (HN : name_ok name) by apply (HF _ Hi).
  assert (exists r, named (body (name, PList l)) name r /\ (r = [] /\ l = [] \/ exists x l', l = x :: l' /\ r = x ++ concat (map (fun x => sp_char :: x) l'))) as (r & Hr & E).
  { unfold body. cbn [fst snd]. destruct l as [|x l].
    - exists []. split; auto. split; [apply HN|]. right. cbn [map concat]. now rewrite app_nil_r.
    - exists (x ++ concat (map (fun x => sp_char :: x) l)). split; [|right; eauto]. split; [apply HN|]. now left. }
  exists r. split; auto. apply in_split in Hi. destruct Hi as (l1 & l2 & ->).
  exists (map body (l1 ++ (name, PList l) :: l2)), (map body l1), (body (name, PList l)), (map body l2). rewrite write_joined.
  split; [|split; [now rewrite map_app|split; auto]].
  - exists (map body (l1 ++ (name, PList l) :: l2)), []. split; auto. split; [|split; [intros []|now rewrite app_nil_r]].
    apply Forall_forall. intros x Hx. apply in_map_iff in Hx. destruct Hx as (y & <- & Hy). apply body_line; apply HF; auto.
  - intros l' r' Hl' N'. apply in_map_iff in Hl'. destruct Hl' as (y & <- & Hy). apply body_named in N'; [|apply HF; apply in_or_app; auto].
    rewrite map_app in ND. cbn [map fst] in ND. apply NoDup_remove_2 in ND. apply ND. rewrite N'. apply in_or_app. left. now apply in_map.
Qed.
(** the words of a list line, up to the first that is not extracted *)
Lemma words_numbers {T} (item : text -> T -> text -> Prop) (w : T -> text) (tail : text) :
  (forall lead x rest, blank lead -> (rest = [] \/ exists r, rest = sp_char :: r) -> item (lead ++ w x ++ rest) x rest) ->
  (forall z r, ~ item tail z r) -> (tail = [] \/ exists r, tail = sp_char :: r) ->
  forall l lead x, blank lead -> numbers item (lead ++ w x ++ concat (map (fun x => sp_char :: x) (map w l)) ++ tail) (x :: l).
Proof.
  intros H1 H2 H3. assert (R : forall l, (concat (map (fun x => sp_char :: x) (map w l)) ++ tail = [] \/ exists r, concat (map (fun x => sp_char :: x) (map w l)) ++ tail = sp_char :: r)).
  { intros [|y l]; cbn [map concat app]; auto. right. eauto. }
  induction l as [|y l IH]; intros lead x Hl.
  - econstructor; [apply H1; auto|]. cbn [map concat app]. constructor. auto.
  - econstructor; [apply H1; auto|]. cbn [map concat]. change ((sp_char :: w y) ++ concat (map (fun x => sp_char :: x) (map w l))) with ([sp_char] ++ w y ++ concat (map (fun x => sp_char :: x) (map w l))).
    rewrite <- !app_assoc. apply IH. intros c [<-|[]]. reflexivity.
Qed.
Lemma dec_size z lead rest : (- 2 ^ 64 < z < 2 ^ 64)%Z -> blank lead -> (rest = [] \/ exists r, rest = sp_char :: r) -> size_text (lead ++ dec z ++ rest) (z mod 2 ^ 64) rest.
Proof.
  intros Hz Hl Hr. assert (HR : no_more rest). { destruct Hr as [->|(r & ->)]; [exact I|]. cbn. intros D. apply digit_nospace in D. vm_compute in D. discriminate. }
  destruct (dec_shape z) as [(-> & ->)|[(p & -> & ->)|(p & -> & ->)]].
  - exists lead, [], 1%Z, (txt "0"). split; [reflexivity|]. split; auto. split; [now left|]. split; [|split; [auto|split; reflexivity]].
    split; [discriminate|]. intros c [<-|[]]. exists 48. split; [lia|reflexivity].
  - exists lead, [], 1%Z, (txt (NilEmpty.string_of_uint (Pos.to_uint p))). split; [reflexivity|]. split; auto. split; [now left|]. split; [apply numeral_pos|]. split; [auto|]. rewrite place_pos. split; [lia|]. f_equal; lia.
  - exists lead, (txt "-"), (-1)%Z, (txt (NilEmpty.string_of_uint (Pos.to_uint p))). split; [reflexivity|]. split; auto. split; [cbn; auto|]. split; [apply numeral_pos|]. split; [auto|]. rewrite place_pos. split; [lia|]. f_equal; lia.
Qed.
Definition fits (z : Z) : Prop := (0 <= z < 2 ^ 64)%Z.
Lemma dec_fits z lead rest : (0 <= z < 2 ^ 64)%Z -> blank lead -> (rest = [] \/ exists r, rest = sp_char :: r) -> size_text (lead ++ dec z ++ rest) z rest.
Proof. intros Hz Hl Hr. pose proof (dec_size z lead rest ltac:(lia) Hl Hr) as K. rewrite Z.mod_small in K by lia. exact K. Qed.
(** A list of integers that the launcher writes is read back, appended to the array: up to the first word that does
    not start with a number, exactly if there is none. *)
Theorem C84_round_trip b attrs name zs arr : attrs_ok attrs -> In (name, PList (map dec zs)) attrs -> Forall fits zs ->
  read_array_size b (Some (write_sim_params attrs)) name arr = Ok (arr ++ zs).
Proof.
  intros H Hi Hz. destruct (list_line attrs name (map dec zs) H Hi) as (r & HL & [[-> E]|(x & l' & E & ->)]); destruct zs as [|z zs]; try discriminate.
  - unfold read_array_size. apply (read_array_ok get_size size_text C84_integer size_text_shorter b _ _ arr [] []); auto.
    constructor. intros z r K. apply size_text_shorter in K. cbn in K. lia.
  - cbn [map] in E. injection E as <- <-.
    unfold read_array_size. apply (read_array_ok get_size size_text C84_integer size_text_shorter b _ _ arr _ (z :: zs) HL).
    assert (G : forall l lead z, blank lead -> Forall fits (z :: l) -> numbers size_text (lead ++ dec z ++ concat (map (fun x => sp_char :: x) (map dec l))) (z :: l)).
    { clear. induction l as [|y l IH]; intros lead z Hl HF; inversion HF as [|? ? Hz HF']; subst; unfold fits in Hz.
      - econstructor; [apply dec_fits; [lia|auto|]|].
        + now left.
        + constructor. intros z' r K. apply size_text_shorter in K. cbn in K. lia.
      - econstructor; [apply dec_fits; [lia|auto|]|].
        + right. cbn [map concat app]. eauto.
        + cbn [map concat]. change ((sp_char :: dec y) ++ concat (map (fun x => sp_char :: x) (map dec l))) with ([sp_char] ++ dec y ++ concat (map (fun x => sp_char :: x) (map dec l))).
          apply IH; auto. intros c [<-|[]]. reflexivity. }
    apply (G zs [] z); auto. intros ? [].
Qed.
(** Truncation without notice at the first word that is not a number. *)
Theorem C84_truncates b attrs name zs bad more arr : attrs_ok attrs -> In (name, PList (map dec zs ++ bad :: more)) attrs -> Forall fits zs ->
  solid bad -> (forall z r, ~ size_text bad z r) -> bad <> [] ->
  read_array_size b (Some (write_sim_params attrs)) name arr = Ok (arr ++ zs).
Proof.
  intros H Hi Hz Sb Nb B0.
  assert (NB : forall lead tail z r, blank lead -> (tail = [] \/ exists t, tail = sp_char :: t) -> ~ size_text (lead ++ bad ++ tail) z r).
  { intros lead tail z r Hl Ht (lead' & sg & k & ds & E & Hl' & Hs & [Hn Hd] & Hr & Hb & Ez). subst z.
    (* compare the texts after the blanks *)
    assert (ET : skip_ws (lead ++ bad ++ tail) = skip_ws (sg ++ ds ++ r)) by (rewrite E, skip_ws_app by auto; reflexivity).
    rewrite skip_ws_app in ET by auto. destruct bad as [|c bad]; [congruence|]. cbn [app] in ET. rewrite skip_ws_id in ET by (apply Sb; now left).
    assert (ES : skip_ws (sg ++ ds ++ r) = sg ++ ds ++ r).
    { destruct Hs as [Hs|[Hs|[Hs|[]]]]; injection Hs as <- <-; [|reflexivity|reflexivity]. destruct ds as [|d ds]; [congruence|]. cbn [app]. apply skip_ws_id. apply digit_nospace. apply Hd. now left. }
    rewrite ES in ET.
    (* bad = sg ++ some digits: take the prefix *)
    assert (P : forall (u v x y : text), solid u -> solid v -> (x = [] \/ exists t, x = sp_char :: t) -> u ++ x = v ++ y -> exists w, u = v ++ w /\ y = w ++ x).
    { clear. induction u as [|c u IH]; intros v x y Hu Hv Hx E.
      - destruct v as [|d v]; [exists []; cbn in E |- *; auto|]. cbn [app] in E. destruct Hx as [->|(t & ->)]; [discriminate|]. injection E as <- _. assert (X : is_space sp_char = false) by (apply Hv; now left). vm_compute in X. discriminate.
      - destruct v as [|d v]; [exists (c :: u); auto|]. cbn [app] in E. injection E as <- E. destruct (IH v x y) as (w & -> & ->); auto; [intros z Hz; apply Hu; now right|intros z Hz; apply Hv; now right|]. exists w. auto. }
    destruct (P (c :: bad) (sg ++ ds) tail r) as (w & Ew & Er); auto.
    - intros x Hx. apply in_app_iff in Hx. destruct Hx as [Hx|Hx]; [|apply digit_nospace; auto]. destruct Hs as [Hs|[Hs|[Hs|[]]]]; injection Hs as <- <-; cbn in Hx; intuition (subst; reflexivity).
    - rewrite <- app_assoc. exact ET.
    - apply (Nb ((k * place_value ds) mod 2 ^ 64)%Z w). exists [], sg, k, ds. rewrite Ew, <- app_assoc. split; [reflexivity|]. split; [intros ? []|]. split; auto. split; [split; auto|]. split; [|auto].
      destruct w as [|x w]; [exact I|]. rewrite Er in Hr. exact Hr. }
  destruct (list_line attrs name _ H Hi) as (r & HL & [[-> E]|(x & l' & E & ->)]); [destruct zs; discriminate|].
  unfold read_array_size. apply (read_array_ok get_size size_text C84_integer size_text_shorter b _ _ arr _ zs HL).
  assert (TL : forall l, concat (map (fun x : text => sp_char :: x) l) = [] \/ exists t, concat (map (fun x : text => sp_char :: x) l) = sp_char :: t).
  { intros [|y l]; cbn [map concat app]; eauto. }
  assert (G : forall zs lead x l', blank lead -> Forall fits zs -> map dec zs ++ bad :: more = x :: l' -> numbers size_text (lead ++ x ++ concat (map (fun x => sp_char :: x) l')) zs).
  { clear -NB TL. induction zs as [|z zs IH]; intros lead x l' Hl HF E; cbn [map app] in E; injection E as <- <-.
    - constructor. intros z r. apply NB; auto.
    - inversion HF as [|? ? Hz HF']; subst. unfold fits in Hz. econstructor.
      + apply dec_fits; [lia|auto|]. cbv beta. destruct (TL (map dec zs ++ bad :: more)) as [X|X]; [left|right]; exact X.
      + destruct (map dec zs ++ bad :: more) as [|y l'] eqn:E; [destruct zs; discriminate|]. cbn [map concat].
        change ((sp_char :: y) ++ concat (map (fun x => sp_char :: x) l')) with ([sp_char] ++ y ++ concat (map (fun x => sp_char :: x) l')). apply IH; auto. intros c [<-|[]]. reflexivity. }
  apply (G zs [] x l'); auto. intros ? [].
Qed.
(** A number with a fraction or exponent is cut there, and the rest of the line is dropped: the integer part of the
    first such word is the last element. *)
Theorem C84_fraction b attrs name zs z frac more arr : attrs_ok attrs -> In (name, PList (map dec zs ++ (dec z ++ frac) :: more)) attrs -> Forall fits zs -> fits z ->
  (exists t, frac = "."%char :: t \/ frac = "e"%char :: t \/ frac = ","%char :: t) ->
  read_array_size b (Some (write_sim_params attrs)) name arr = Ok (arr ++ zs ++ [z]).
Proof.
  intros H Hi Hz Hz0 Hf.
  assert (NF : forall tail, (forall z r, ~ size_text (frac ++ tail) z r) /\ no_more (frac ++ tail)).
  { intros tail. destruct Hf as (t & Hf). assert (D : exists c t', frac = c :: t' /\ digit c = None /\ is_space c = false /\ Ascii.eqb c "-" = false /\ Ascii.eqb c "+" = false) by (destruct Hf as [Hf|[Hf|Hf]]; subst frac; do 2 eexists; (split; [reflexivity|]); repeat split).
    destruct D as (c & t' & -> & D1 & D2 & D3 & D4). split.
    - intros y r K. apply C84_integer in K. unfold get_size in K. cbn [app] in K. rewrite skip_ws_id in K by auto. rewrite D3, D4, D1 in K. discriminate.
    - cbn. intros X. rewrite (digit_is c X) in D1. discriminate. }
  destruct (list_line attrs name _ H Hi) as (r & HL & [[-> E]|(x & l' & E & ->)]); [destruct zs; discriminate|].
  unfold read_array_size. apply (read_array_ok get_size size_text C84_integer size_text_shorter b _ _ arr _ (zs ++ [z]) HL).
  assert (G : forall zs lead x l', blank lead -> Forall fits zs -> map dec zs ++ (dec z ++ frac) :: more = x :: l' -> numbers size_text (lead ++ x ++ concat (map (fun x => sp_char :: x) l')) (zs ++ [z])).
  { clear -NF Hz0. induction zs as [|y zs IH]; intros lead x l' Hl HF E; cbn [map app] in E; injection E as <- <-.
    - cbn [app]. rewrite <- app_assoc. apply num_more with (r := frac ++ concat (map (fun x => sp_char :: x) more)); [|constructor; apply NF].
      destruct (NF (concat (map (fun x => sp_char :: x) more))) as [_ NM]. unfold fits in Hz0. destruct (dec_size z lead [] ltac:(lia) Hl ltac:(now left)) as (ld & sg & k & ds & E & A1 & A2 & A3 & _ & A5 & A6).
      rewrite Z.mod_small in A6 by lia. exists ld, sg, k, ds. split; [|exact (conj A1 (conj A2 (conj A3 (conj NM (conj A5 A6)))))]. rewrite !app_nil_r in E. rewrite app_assoc, E, <- !app_assoc. reflexivity.
    - inversion HF as [|? ? Hy HF']; subst. unfold fits in Hy. cbn [app]. econstructor.
      + apply dec_fits; [lia|auto|]. destruct (map dec zs ++ (dec z ++ frac) :: more) as [|y' l'] eqn:E; [destruct zs; discriminate|]. right. cbn [map concat app]. eauto.
      + destruct (map dec zs ++ (dec z ++ frac) :: more) as [|y' l'] eqn:E; [destruct zs; discriminate|]. cbn [map concat].
        change ((sp_char :: y') ++ concat (map (fun x => sp_char :: x) l')) with ([sp_char] ++ y' ++ concat (map (fun x => sp_char :: x) l')). apply IH; auto. intros c [<-|[]]. reflexivity. }
  apply (G zs [] x l'); auto. intros ? [].
Qed.
(** Negative entries are not rejected: they wrap around. *)
Theorem C84_negative b attrs name z arr : attrs_ok attrs -> In (name, PList [dec z]) attrs -> (- 2 ^ 64 < z < 0)%Z ->
  read_array_size b (Some (write_sim_params attrs)) name arr = Ok (arr ++ [(z + 2 ^ 64)%Z]).
Proof.
  intros H Hi Hz. destruct (list_line attrs name _ H Hi) as (r & HL & [[-> E]|(x & l' & E & ->)]); [discriminate|]. injection E as <- <-.
  unfold read_array_size. apply (read_array_ok get_size size_text C84_integer size_text_shorter b _ _ arr _ [(z + 2 ^ 64)%Z] HL).
  econstructor.
  - replace (z + 2 ^ 64)%Z with (z mod 2 ^ 64)%Z; [apply (dec_size z []); auto; [lia|intros ? []]|]. symmetry. apply Z.mod_unique_pos with (q := (-1)%Z); lia.
  - constructor. intros z' r K. apply size_text_shorter in K. cbn in K. lia.
Qed.
(** The overload for doubles, for every extraction of doubles that reads back the words [w x] standing before a blank or
    the end of the line and fails at the end of the line. *)
Theorem C84_doubles {F} (get_double : text -> option (F * text)) (w : F -> text) b attrs name (xs : list F) arr :
  (forall s x r, get_double s = Some (x, r) -> length r < length s) ->
  (forall lead x rest, blank lead -> (rest = [] \/ exists r, rest = sp_char :: r) -> get_double (lead ++ w x ++ rest) = Some (x, rest)) ->
  attrs_ok attrs -> In (name, PList (map w xs)) attrs ->
  read_array_double get_double b (Some (write_sim_params attrs)) name arr = Ok (arr ++ xs).
Proof.
  intros G1 G2 H Hi. pose (item := fun s (x : F) r => get_double s = Some (x, r)).
  assert (S1 : forall s z r, get_double s = Some (z, r) <-> item s z r) by (intros; reflexivity).
  assert (N0 : forall z r, ~ item [] z r) by (intros z r K; apply G1 in K; cbn in K; lia).
  destruct (list_line attrs name _ H Hi) as (r & HL & [[-> E]|(x & l' & E & ->)]); destruct xs as [|z xs]; try discriminate; unfold read_array_double.
  - apply (read_array_ok get_double item S1 G1 b _ _ arr [] []); auto. constructor. apply N0.
  - cbn [map] in E. injection E as <- <-. apply (read_array_ok get_double item S1 G1 b _ _ arr _ (z :: xs) HL).
    pose proof (words_numbers item w [] G2 N0 ltac:(now left) xs [] z ltac:(intros ? [])) as K. now rewrite app_nil_r in K.
Qed.
(** The scalar reader and the array reader look at the same line. *)
Theorem C84_same_line b s key v : p_read b (Some s) key = Ok v -> exists r, line_of s key r /\ first_word r v /\ exists l, read_array_size b (Some s) key [] = Ok l /\ numbers size_text r l.
Proof.
  intros E. apply (proj1 (C53_spec b s key)) in E. destruct E as (L & l1 & l & l2 & r & HL & EE & HF & N & W). assert (LO : line_of s key r) by (exists L, l1, l, l2; auto).
  exists r. split; auto. split; auto. destruct (drain_numbers get_size size_text C84_integer size_text_shorter (S (length r)) r) as (v' & Hv & _); [lia|]. exists v'. split; auto.
  apply (read_array_ok get_size size_text C84_integer size_text_shorter b s key [] r v'); auto.
Qed.

Example C84_example :
  let attrs := [(txt "home_dir", Scalar (txt "/home/a b")); (txt "ranges", PList (map dec [3; 0; 17]%Z)); (txt "bad", PList (map dec [3; 5]%Z ++ txt "x7" :: map dec [9]%Z));
                (txt "cut", PList (map dec [3]%Z ++ (dec 2 ++ txt ".5") :: map dec [9]%Z)); (txt "neg", PList [dec (-1)]); (txt "none", PList [])] in
  attrs_ok attrs /\ Forall fits [3; 0; 17]%Z /\
  read_array_size (Build false true false) (Some (write_sim_params attrs)) (txt "ranges") [8%Z] = Ok [8; 3; 0; 17]%Z /\
  read_array_size (Build false true false) (Some (write_sim_params attrs)) (txt "bad") [] = Ok [3; 5]%Z /\
  read_array_size (Build false true false) (Some (write_sim_params attrs)) (txt "cut") [] = Ok [3; 2]%Z /\
  read_array_size (Build false true false) (Some (write_sim_params attrs)) (txt "neg") [] = Ok [18446744073709551615]%Z /\
  read_array_size (Build false true false) (Some (write_sim_params attrs)) (txt "none") [8%Z] = Ok [8%Z] /\
  read_array_size (Build false true false) (Some (write_sim_params attrs)) (txt "range") [] = Exit 0.
Proof.
  intros attrs. split; [apply attrs_okb_ok; vm_compute; reflexivity|]. split; [repeat constructor; unfold fits; lia|].
  repeat split; vm_compute; reflexivity.
Qed.
