(** Lemmas about the parameter reader: lines, names, words, integers. *)
From Coq Require Import Ascii String Decimal DecimalString DecimalFacts DecimalZ DecimalPos DecimalN.
From Verif Require Import Base BaseLemmas Arith MParams MIo PText.
Local Open Scope nat_scope.

(** ** getline *)
Lemma cut_spec c s : (~ In c s /\ cut c s = (s, None)) \/ (exists a r, s = a ++ c :: r /\ ~ In c a /\ cut c s = (a, Some r)).
Proof.
  induction s as [|x s IH]; [left; split; [tauto|reflexivity]|]. cbn [cut]. destruct (Ascii.eqb_spec x c) as [->|N].
  - right. exists [], s. split; auto.
  - destruct IH as [[H E]|(a & r & E1 & E2 & E)]; rewrite E.
    + left. split; auto. intros [?|?]; auto.
    + right. exists (x :: a), r. split; [cbn; congruence|]. split; auto. intros [?|?]; auto.
Qed.
Lemma cut_app c a r : ~ In c a -> cut c (a ++ c :: r) = (a, Some r).
Proof.
  induction a as [|x a IH]; intros H; cbn [cut app].
  - now rewrite Ascii.eqb_refl.
  - destruct (Ascii.eqb_spec x c) as [->|N]; [exfalso; apply H; now left|]. rewrite IH by (intros ?; apply H; now right). reflexivity.
Qed.
Lemma cut_none c a : ~ In c a -> cut c a = (a, None).
Proof.
  induction a as [|x a IH]; intros H; cbn [cut]; [reflexivity|].
  destruct (Ascii.eqb_spec x c) as [->|N]; [exfalso; apply H; now left|]. rewrite IH by (intros ?; apply H; now right). reflexivity.
Qed.

(** the text made of the lines ls, each ended by a newline, followed by an unterminated last line *)
Definition joined (ls : list text) (rest : text) : text := concat (map (fun l => l ++ [nl_char]) ls) ++ rest.
Definition one_line (l : text) : Prop := ~ In nl_char l.
Definition last_line (rest : text) : list text := match rest with [] => [] | _ => [rest] end.

Lemma lines_fuel_joined ls : forall fuel rest, Forall one_line ls -> one_line rest -> length (joined ls rest) < fuel ->
  lines_fuel fuel (joined ls rest) = ls ++ last_line rest.
Proof.
  induction ls as [|l ls IH]; intros fuel rest Hl Hr Hf.
  - unfold joined in *. cbn [map concat app] in *. destruct fuel; [cbn in Hf; lia|]. cbn [lines_fuel]. rewrite cut_none by auto. destruct rest; reflexivity.
  - inversion Hl; subst. assert (EJ : joined (l :: ls) rest = l ++ nl_char :: joined ls rest).
    { unfold joined. cbn [map concat]. rewrite <- !app_assoc. reflexivity. }
    rewrite EJ in *. destruct fuel; [lia|]. cbn [lines_fuel]. rewrite cut_app by auto. rewrite IH; auto.
    { cbn [app]. destruct l; reflexivity. }
    rewrite app_length in Hf. cbn [length] in Hf. lia.
Qed.
Lemma lines_joined ls rest : Forall one_line ls -> one_line rest -> lines (joined ls rest) = ls ++ last_line rest.
Proof. intros. unfold lines. apply lines_fuel_joined; auto. Qed.
Lemma joined_ex s : exists ls rest, s = joined ls rest /\ Forall one_line ls /\ one_line rest.
Proof.
  induction s as [|c s (ls & rest & -> & H1 & H2)]; [exists [], []; repeat split; auto; intros []|].
  destruct (ascii_dec c nl_char) as [->|N].
  - exists ([] :: ls), rest. split; [reflexivity|]. split; auto. constructor; auto. intros [].
  - destruct ls as [|l ls].
    + exists [], (c :: rest). split; [reflexivity|]. split; auto. intros [?|?]; auto.
    + inversion H1; subst. exists ((c :: l) :: ls), rest. split; [reflexivity|]. split; auto. constructor; auto. intros [?|?]; auto.
Qed.

(** ** the first word *)
Definition blank (s : text) : Prop := forall c, In c s -> is_space c = true.
Definition solid (s : text) : Prop := forall c, In c s -> is_space c = false.
(** v is the first blank-separated word of s (empty if s has none) *)
Definition first_word (s v : text) : Prop :=
  exists lead tail, s = lead ++ v ++ tail /\ blank lead /\ solid v /\ (tail = [] \/ exists c t, tail = c :: t /\ is_space c = true) /\ (v = [] -> tail = []).
Lemma word_spec s : first_word s (word s).
Proof.
  unfold word. induction s as [|c s IH]; cbn [skip_ws].
  - exists [], []. split; [reflexivity|]. split; [intros ? []|]. split; [intros ? []|]. auto.
  - destruct (is_space c) eqn:E.
    + destruct IH as (lead & tail & E1 & E2 & E3). exists (c :: lead), tail. split; [cbn [app]; now rewrite <- E1|]. split; [|exact E3].
      intros x [<-|H]; auto.
    + exists []. cbn [app]. assert (T : forall t, exists tail, t = take_word t ++ tail /\ solid (take_word t) /\ (tail = [] \/ exists d t', tail = d :: t' /\ is_space d = true)).
      { induction t as [|d t (tail & T1 & T2 & T3)]; cbn [take_word]; [exists []; split; [reflexivity|split; [intros ? []|auto]]|].
        destruct (is_space d) eqn:D; [exists (d :: t); split; [reflexivity|]; split; [intros ? []|right; eauto]|].
        exists tail. split; [cbn [app]; now rewrite <- T1|]. split; auto. intros x [<-|H]; auto. }
      destruct (T (c :: s)) as (tail & T1 & T2 & T3). exists tail. split; auto. split; [intros ? []|]. split; auto. split; auto.
      cbn [take_word]. rewrite E. discriminate.
Qed.
Lemma word_solid v : solid v -> word v = v.
Proof.
  intros H. unfold word. assert (S : skip_ws v = v). { destruct v as [|c v]; [reflexivity|]. cbn [skip_ws]. rewrite H by now left. reflexivity. }
  rewrite S. clear S. induction v as [|c v IH]; [reflexivity|]. cbn [take_word]. rewrite H by now left. rewrite IH; [reflexivity|]. intros x Hx. apply H. now right.
Qed.

(** ** matching a line *)
(** the line l carries the name key and the text r after it: "key r" with one blank between, or just "key" *)
Definition named (l key r : text) : Prop := ~ In sp_char key /\ (l = key ++ sp_char :: r \/ (l = key /\ r = [])).
Lemma named_cut l key : (exists r, named l key r) <-> fst (cut sp_char l) = key.
Proof.
  destruct (cut_spec sp_char l) as [[H E]|(a & r & E1 & E2 & E)]; rewrite E; cbn [fst]; split.
  - intros (r & K & [->|[-> _]]); auto. exfalso. apply H. apply in_or_app. right. now left.
  - intros ->. exists []. split; auto.
  - intros (r' & K & [->|[-> _]]).
    + rewrite cut_app in E by auto. congruence.
    + exfalso. apply K. rewrite E1. apply in_or_app. right. now left.
  - intros ->. exists r. split; auto.
Qed.
Lemma named_val l key r : named l key r -> text_eqb (fst (cut sp_char l)) key = true /\ (match snd (cut sp_char l) with Some r => word r | None => [] end) = word r.
Proof.
  intros (K & [->|[-> ->]]).
  - rewrite cut_app by auto. cbn [fst snd]. now rewrite text_eqb_refl.
  - rewrite cut_none by auto. cbn [fst snd]. now rewrite text_eqb_refl.
Qed.
Lemma read_lines_found l1 l l2 key r : (forall l', In l' l1 -> forall r', ~ named l' key r') -> named l key r -> read_lines (l1 ++ l :: l2) key = Ok (word r).
Proof.
  intros H N. induction l1 as [|x l1 IH]; cbn [app read_lines].
  - destruct (named_val _ _ _ N) as [A B]. destruct (cut sp_char l) as [nm rest]. cbn [fst snd] in *. rewrite A. now rewrite B.
  - assert (Nx : fst (cut sp_char x) <> key). { intros E. apply named_cut in E. destruct E as (r' & E). apply (H x (or_introl eq_refl) r' E). }
    destruct (cut sp_char x) as [nm rest]. cbn [fst] in Nx. rewrite text_eqb_neq by auto. apply IH. intros l' Hl'. apply H. now right.
Qed.
Lemma read_lines_missing ls key : (forall l', In l' ls -> forall r', ~ named l' key r') -> read_lines ls key = Exit 0.
Proof.
  intros H. induction ls as [|x ls IH]; [reflexivity|]. cbn [read_lines].
  assert (Nx : fst (cut sp_char x) <> key). { intros E. apply named_cut in E. destruct E as (r' & E). apply (H x (or_introl eq_refl) r' E). }
  destruct (cut sp_char x) as [nm rest]. cbn [fst] in Nx. rewrite text_eqb_neq by auto. apply IH. intros l' Hl'. apply H. now right.
Qed.
(** either no line is named key or there is a first one *)
Lemma first_named ls key : (forall l, In l ls -> forall r, ~ named l key r) \/
  (exists l1 l l2 r, ls = l1 ++ l :: l2 /\ named l key r /\ forall l', In l' l1 -> forall r', ~ named l' key r').
Proof.
  induction ls as [|x ls IH]; [left; intros ? []|]. destruct (list_eq_dec ascii_dec (fst (cut sp_char x)) key) as [E|N].
  - right. apply named_cut in E. destruct E as (r & E). exists [], x, ls, r. auto.
  - assert (Nx : forall r, ~ named x key r). { intros r E. apply N. apply named_cut. eauto. }
    destruct IH as [IH|(l1 & l & l2 & r & -> & H1 & H2)].
    + left. intros l [<-|H]; auto.
    + right. exists (x :: l1), l, l2, r. split; auto. split; auto. intros l' [<-|H]; auto.
Qed.

(** ** integers *)
Definition numeral (ds : text) : Prop := ds <> [] /\ forall c, In c ds -> is_digit c.
(** positional value of a string of digits *)
Fixpoint place_value (ds : text) : Z :=
  match ds with [] => 0%Z | c :: ds' => ((Z.of_nat (nat_of_ascii c) - 48) * 10 ^ Z.of_nat (length ds') + place_value ds')%Z end.
Lemma digit_is c : is_digit c -> digit c = Some (Z.of_nat (nat_of_ascii c) - 48)%Z.
Proof.
  intros (n & Hn & ->). unfold digit. rewrite nat_ascii_embedding by lia.
  destruct (Nat.leb_spec 48 n), (Nat.leb_spec n 57); try lia. reflexivity.
Qed.
Lemma digit_not c : ~ is_digit c -> digit c = None.
Proof.
  intros H. unfold digit. destruct (Nat.leb_spec 48 (nat_of_ascii c)), (Nat.leb_spec (nat_of_ascii c) 57); auto.
  exfalso. apply H. exists (nat_of_ascii c). split; [lia|]. now rewrite ascii_nat_embedding.
Qed.
Lemma digit_dec c : is_digit c \/ ~ is_digit c.
Proof.
  destruct (le_lt_dec 48 (nat_of_ascii c)), (le_lt_dec (nat_of_ascii c) 57).
  - left. exists (nat_of_ascii c). rewrite ascii_nat_embedding. auto.
  - right. intros (n & H & E). apply (f_equal nat_of_ascii) in E. rewrite nat_ascii_embedding in E by lia. lia.
  - right. intros (n & H & E). apply (f_equal nat_of_ascii) in E. rewrite nat_ascii_embedding in E by lia. lia.
  - right. intros (n & H & E). apply (f_equal nat_of_ascii) in E. rewrite nat_ascii_embedding in E by lia. lia.
Qed.
(** the text goes on with something that is not a digit, or ends *)
Definition no_more (s : text) : Prop := match s with [] => True | c :: _ => ~ is_digit c end.
Lemma digits_app ds rest : (forall c, In c ds -> is_digit c) -> no_more rest -> forall acc, digits acc (ds ++ rest) = (acc * 10 ^ Z.of_nat (length ds) + place_value ds)%Z.
Proof.
  intros H N. induction ds as [|c ds IH]; intros acc.
  - cbn [app length place_value]. change (10 ^ Z.of_nat 0)%Z with 1%Z. destruct rest as [|c rest]; cbn [digits]; [lia|]. cbn in N. rewrite digit_not by auto. lia.
  - cbn [app digits place_value length]. rewrite digit_is by (apply H; now left). rewrite IH by (intros; apply H; now right).
    rewrite Nat2Z.inj_succ, Z.pow_succ_r by lia. ring.
Qed.
Definition signs : list (text * Z) := [([], 1%Z); (txt "+", 1%Z); (txt "-", (-1)%Z)].
Lemma skip_ws_app lead s : blank lead -> skip_ws (lead ++ s) = skip_ws s.
Proof. intros H. induction lead as [|c lead IH]; [reflexivity|]. cbn [app skip_ws]. rewrite H by now left. apply IH. intros x Hx. apply H. now right. Qed.
Lemma skip_ws_id c s : is_space c = false -> skip_ws (c :: s) = c :: s.
Proof. intros H. cbn [skip_ws]. now rewrite H. Qed.
Lemma digit_nospace c : is_digit c -> is_space c = false.
Proof.
  intros (n & Hn & ->). unfold is_space. rewrite nat_ascii_embedding by lia.
  destruct (Nat.eqb_spec n 32); [lia|]. destruct (Nat.leb_spec 9 n), (Nat.leb_spec n 13); try lia; reflexivity.
Qed.
Lemma digit_nosign c : is_digit c -> Ascii.eqb c "-" = false /\ Ascii.eqb c "+" = false.
Proof.
  intros (n & Hn & E). split; apply Ascii.eqb_neq; intros ->; apply (f_equal nat_of_ascii) in E; rewrite nat_ascii_embedding in E by lia; vm_compute in E; lia.
Qed.
Lemma signed_value lead sg k ds rest : blank lead -> In (sg, k) signs -> numeral ds -> no_more rest ->
  signed_digits (skip_ws (lead ++ sg ++ ds ++ rest)) = Some (k * place_value ds)%Z.
Proof.
  intros Hl Hs [Hn Hd] Hr. rewrite skip_ws_app by auto. destruct ds as [|c ds]; [congruence|].
  assert (Dc : is_digit c) by (apply Hd; now left). destruct (digit_nosign c Dc) as [M P].
  { pose proof (digits_app (c :: ds) rest Hd Hr 0) as DV. rewrite Z.mul_0_l, Z.add_0_l in DV.
    destruct Hs as [Hs|[Hs|[Hs|[]]]]; injection Hs as <- <-.
    - cbn [app]. rewrite skip_ws_id by (apply digit_nospace; auto). unfold signed_digits. rewrite M, P. rewrite digit_is by auto. change (c :: ds ++ rest) with ((c :: ds) ++ rest). rewrite DV. f_equal. lia.
    - cbn [app txt list_ascii_of_string]. rewrite skip_ws_id by reflexivity. unfold signed_digits.
      change (Ascii.eqb "+" "-") with false. change (Ascii.eqb "+" "+") with true. cbv beta iota. rewrite digit_is by auto. change (c :: ds ++ rest) with ((c :: ds) ++ rest). rewrite DV. f_equal. lia.
    - cbn [app txt list_ascii_of_string]. rewrite skip_ws_id by reflexivity. unfold signed_digits.
      change (Ascii.eqb "-" "-") with true. cbv beta iota. rewrite digit_is by auto. change (c :: ds ++ rest) with ((c :: ds) ++ rest). rewrite DV. cbn [option_map]. reflexivity. }
Qed.
Lemma stoi_value lead sg k ds rest : blank lead -> In (sg, k) signs -> numeral ds -> no_more rest ->
  stoi (lead ++ sg ++ ds ++ rest) = if ((- 2 ^ 31 <=? k * place_value ds) && (k * place_value ds <? 2 ^ 31))%Z%bool then Ok (k * place_value ds)%Z else Throw.
Proof. intros. unfold stoi. rewrite (signed_value lead sg k ds rest) by auto. reflexivity. Qed.
(** every text either has such a form or is rejected *)
Definition int_text (s : text) (z : Z) : Prop :=
  exists lead sg k ds rest, s = lead ++ sg ++ ds ++ rest /\ blank lead /\ In (sg, k) signs /\ numeral ds /\ no_more rest /\ z = (k * place_value ds)%Z.
Lemma digit_prefix s : exists ds rest, s = ds ++ rest /\ (forall c, In c ds -> is_digit c) /\ no_more rest.
Proof.
  induction s as [|c s (ds & rest & -> & H1 & H2)]; [exists [], []; split; [reflexivity|]; split; [intros ? []|exact I]|].
  destruct (digit_dec c) as [D|D]; [exists (c :: ds), rest|exists [], (c :: ds ++ rest)]; (split; [reflexivity|]; split; auto).
  - intros x [<-|H]; auto.
  - intros ? [].
Qed.
Lemma stoi_none s : (forall z, ~ int_text s z) -> stoi s = Throw.
Proof.
  intros H. unfold stoi. assert (S : exists lead, s = lead ++ skip_ws s /\ blank lead).
  { clear H. induction s as [|c s (lead & E & B)]; [exists []; split; [reflexivity|intros ? []]|]. cbn [skip_ws]. destruct (is_space c) eqn:C; [|exists []; split; [reflexivity|intros ? []]].
    exists (c :: lead). split; [cbn [app]; now rewrite <- E|]. intros x [<-|Hx]; auto. }
  destruct S as (lead & E & B). set (t := skip_ws s) in *. clearbody t.
  assert (N : forall sg k u, In (sg, k) signs -> t = sg ++ u -> match u with c :: _ => match digit c with Some _ => Some (digits 0 u) | None => None end | [] => None end = None).
  { intros sg k u Hs Et. destruct u as [|c u]; [reflexivity|]. destruct (digit_dec c) as [D|D]; [|now rewrite digit_not]. exfalso.
    destruct (digit_prefix (c :: u)) as (ds & rest & Eu & D1 & D2). apply (H (k * place_value ds)%Z). exists lead, sg, k, ds, rest. split; [congruence|]. split; auto. split; auto. split; [|auto].
    split; auto. intros ->. cbn [app] in Eu. subst rest. contradiction. }
  unfold signed_digits. destruct t as [|c t]; [reflexivity|]. destruct (Ascii.eqb_spec c "-") as [->|M].
  - pose proof (N (txt "-") (-1)%Z t ltac:(cbn; auto) eq_refl) as X. rewrite X. reflexivity.
  - destruct (Ascii.eqb_spec c "+") as [->|P].
    + pose proof (N (txt "+") 1%Z t ltac:(cbn; auto) eq_refl) as X. rewrite X. reflexivity.
    + pose proof (N [] 1%Z (c :: t) ltac:(cbn; auto) eq_refl) as X. cbv beta iota. cbv beta iota in X. rewrite X. reflexivity.
Qed.

(** printed integers are read back *)
Lemma uint_value d : forall acc, Zpos (Pos.of_uint_acc d acc) = (Zpos acc * 10 ^ Z.of_nat (length (txt (NilEmpty.string_of_uint d))) + place_value (txt (NilEmpty.string_of_uint d)))%Z.
Proof.
  induction d; intros acc; [cbn; lia|..];
  (cbn [Pos.of_uint_acc NilEmpty.string_of_uint]; rewrite IHd;
   match goal with |- context [txt (String ?c ?s)] => change (txt (String c s)) with (c :: txt s) end;
   cbn [length place_value]; rewrite Nat2Z.inj_succ, Z.pow_succ_r by lia;
   match goal with |- context [nat_of_ascii ?c] => let v := eval vm_compute in (Z.of_nat (nat_of_ascii c)) in change (Z.of_nat (nat_of_ascii c)) with v end;
   set (P := (10 ^ Z.of_nat (length (txt (NilEmpty.string_of_uint d))))%Z); set (Q := place_value _); clearbody P Q; lia).
Qed.
Lemma uint_value0 d : Z.of_N (Pos.of_uint d) = place_value (txt (NilEmpty.string_of_uint d)).
Proof.
  induction d; [reflexivity|..]; cbn [Pos.of_uint NilEmpty.string_of_uint];
   match goal with |- context [txt (String ?c ?s)] => change (txt (String c s)) with (c :: txt s) end; cbn [place_value];
   match goal with |- context [nat_of_ascii ?c] => let v := eval vm_compute in (Z.of_nat (nat_of_ascii c)) in change (Z.of_nat (nat_of_ascii c)) with v end;
   [rewrite IHd; lia|..]; cbn [Z.of_N]; rewrite uint_value; reflexivity.
Qed.
Lemma place_pos p : place_value (txt (NilEmpty.string_of_uint (Pos.to_uint p))) = Zpos p.
Proof. rewrite <- uint_value0, DecimalPos.Unsigned.of_to. reflexivity. Qed.
Lemma numeral_pos p : numeral (txt (NilEmpty.string_of_uint (Pos.to_uint p))).
Proof. split; [|apply digits_uint]. pose proof (to_uint_nonnil p). destruct (Pos.to_uint p); [congruence|..]; discriminate. Qed.
Lemma dec_int z : int_text (dec z) z.
Proof.
  destruct (dec_shape z) as [(-> & ->)|[(p & -> & ->)|(p & -> & ->)]].
  - exists [], [], 1%Z, (txt "0"), []. split; [reflexivity|]. split; [intros ? []|]. split; [now left|]. split; [|split; [exact I|reflexivity]].
    split; [discriminate|]. intros c [<-|[]]. exists 48. split; [lia|reflexivity].
  - exists [], [], 1%Z, (txt (NilEmpty.string_of_uint (Pos.to_uint p))), []. split; [now rewrite app_nil_r|]. split; [intros ? []|]. split; [now left|]. split; [apply numeral_pos|]. split; [exact I|]. now rewrite place_pos.
  - exists [], (txt "-"), (-1)%Z, (txt (NilEmpty.string_of_uint (Pos.to_uint p))), []. split; [now rewrite app_nil_r|]. split; [intros ? []|]. split; [cbn; auto|]. split; [apply numeral_pos|]. split; [exact I|]. now rewrite place_pos.
Qed.
Lemma stoi_text s z : int_text s z -> stoi s = if ((- 2 ^ 31 <=? z) && (z <? 2 ^ 31))%Z%bool then Ok z else Throw.
Proof. intros (lead & sg & k & ds & rest & -> & H1 & H2 & H3 & H4 & ->). now apply stoi_value. Qed.
Lemma stoi_in s z : int_text s z -> (- 2 ^ 31 <= z < 2 ^ 31)%Z -> stoi s = Ok z.
Proof. intros H B. rewrite (stoi_text s z H). destruct (Z.leb_spec (- 2 ^ 31) z), (Z.ltb_spec z (2 ^ 31)); try lia. reflexivity. Qed.
Lemma int_text_dec s : (exists z, int_text s z) \/ (forall z, ~ int_text s z).
Proof.
  destruct (stoi s) as [z| | | |] eqn:E.
  - left. clear -E. unfold stoi in E. destruct (Classical_Prop.classic (exists z, int_text s z)) as [H|H]; auto. exfalso.
    assert (N : stoi s = Throw) by (apply stoi_none; intros y Hy; eauto). unfold stoi in N. congruence.
  - right. intros z Hz. rewrite (stoi_text s z Hz) in E. destruct (_ && _)%bool in E; discriminate.
  - right. intros z Hz. rewrite (stoi_text s z Hz) in E. destruct (_ && _)%bool in E; discriminate.
  - destruct (Classical_Prop.classic (exists z, int_text s z)) as [H|H]; auto. right. intros z Hz. eauto.
  - right. intros z Hz. rewrite (stoi_text s z Hz) in E. destruct (_ && _)%bool in E; discriminate.
Qed.
Lemma dec_solid z : solid (dec z).
Proof. intros c H. apply dec_chars in H. destruct H as [H| ->]; [now apply digit_nospace|reflexivity]. Qed.
Lemma first_word_word s v : first_word s v -> v = word s.
Proof.
  intros (lead & tail & -> & B & S & T & N). unfold word. rewrite skip_ws_app by auto. destruct v as [|c v].
  - rewrite (N eq_refl). reflexivity.
  - cbn [app]. rewrite skip_ws_id by (apply S; now left). clear -S T. change (c :: v ++ tail) with ((c :: v) ++ tail). set (w := c :: v) in *. clearbody w.
    induction w as [|x w IH].
    + destruct T as [->|(d & t & -> & D)]; [reflexivity|]. cbn [app take_word]. now rewrite D.
    + cbn [app take_word]. rewrite S by now left. f_equal. apply IH. intros y Hy. apply S. now right.
Qed.
