(** Lemmas about the texts the program writes: decimal numbers and file names. *)
From Coq Require Import Ascii String DecimalString Decimal DecimalFacts DecimalZ DecimalPos DecimalN.
From Verif Require Import Base BaseLemmas Arith MParams MIo.

Lemma text_eqb_eq a b : text_eqb a b = true <-> a = b.
Proof. unfold text_eqb. destruct (list_eq_dec _ _ _); split; congruence. Qed.
Lemma text_eqb_refl a : text_eqb a a = true.
Proof. now apply text_eqb_eq. Qed.
Lemma text_eqb_neq a b : a <> b -> text_eqb a b = false.
Proof. intros H. unfold text_eqb. destruct (list_eq_dec _ _ _); congruence. Qed.

(** ** decimal numerals *)
Lemma txt_inj s s' : txt s = txt s' -> s = s'.
Proof. intros H. rewrite <- (string_of_list_ascii_of_string s), <- (string_of_list_ascii_of_string s'). unfold txt in H. now rewrite H. Qed.
Definition is_digit (c : ascii) : Prop := exists n, (48 <= n <= 57)%nat /\ c = ascii_of_nat n.
Lemma digits_uint d : forall c, In c (txt (NilEmpty.string_of_uint d)) -> is_digit c.
Proof.
  induction d; cbn; intros c H; [tauto|..]; (destruct H as [<-|H]; [|auto]).
  - exists 48. split; [lia|reflexivity].
  - exists 49. split; [lia|reflexivity].
  - exists 50. split; [lia|reflexivity].
  - exists 51. split; [lia|reflexivity].
  - exists 52. split; [lia|reflexivity].
  - exists 53. split; [lia|reflexivity].
  - exists 54. split; [lia|reflexivity].
  - exists 55. split; [lia|reflexivity].
  - exists 56. split; [lia|reflexivity].
  - exists 57. split; [lia|reflexivity].
Qed.
Lemma to_uint_nonnil p : Pos.to_uint p <> Nil.
Proof. apply DecimalPos.Unsigned.to_uint_nonnil. Qed.
Lemma nz_uint d : d <> Nil -> NilZero.string_of_uint d = NilEmpty.string_of_uint d.
Proof. destruct d; auto; congruence. Qed.
Definition nonneg_dec (z : Z) := (0 <= z)%Z.
(** shape of a printed integer *)
Lemma dec_shape z : (z = 0%Z /\ dec z = txt "0") \/
  (exists p, z = Zpos p /\ dec z = txt (NilEmpty.string_of_uint (Pos.to_uint p))) \/
  (exists p, z = Zneg p /\ dec z = "-"%char :: txt (NilEmpty.string_of_uint (Pos.to_uint p))).
Proof.
  destruct z as [|p|p]; [left|right; left|right; right].
  - split; reflexivity.
  - exists p. split; auto. unfold dec. cbn [Z.to_int NilZero.string_of_int]. now rewrite nz_uint by apply to_uint_nonnil.
  - exists p. split; auto. unfold dec. cbn [Z.to_int NilZero.string_of_int]. now rewrite nz_uint by apply to_uint_nonnil.
Qed.
Lemma dec_chars z c : In c (dec z) -> is_digit c \/ c = "-"%char.
Proof.
  destruct (dec_shape z) as [(-> & ->)|[(p & -> & ->)|(p & -> & ->)]]; intros H.
  - destruct H as [<-|[]]. left. exists 48. split; [lia|reflexivity].
  - left. eapply digits_uint; eauto.
  - destruct H as [<-|H]; auto. left. eapply digits_uint; eauto.
Qed.
Lemma dec_nonempty z : dec z <> [].
Proof.
  destruct (dec_shape z) as [(-> & ->)|[(p & -> & ->)|(p & -> & ->)]]; try discriminate.
  pose proof (to_uint_nonnil p). destruct (Pos.to_uint p); [congruence|..]; discriminate.
Qed.
Lemma dec_inj z z' : dec z = dec z' -> z = z'.
Proof.
  intros H. unfold dec in H. apply txt_inj in H.
  assert (N : forall x, Z.to_int x <> Pos Nil /\ Z.to_int x <> Neg Nil).
  { intros [|p|p]; cbn; split; try discriminate; intros E; injection E as E; now apply to_uint_nonnil in E. }
  destruct (N z), (N z'). apply (f_equal NilZero.int_of_string) in H. rewrite !NilZero.isi in H by auto. injection H as H.
  rewrite <- (DecimalZ.of_to z), <- (DecimalZ.of_to z'). now rewrite H.
Qed.

(** ** splitting at the last underscore *)
Definition us : ascii := "_"%char.
Lemma last_split (a a' w w' : text) : ~ In us w -> ~ In us w' -> a ++ us :: w = a' ++ us :: w' -> a = a' /\ w = w'.
Proof.
  intros Hw Hw'. revert a'. induction a as [|x a IH]; intros a' E.
  - destruct a' as [|y a']; cbn in E.
    + injection E as ->. auto.
    + injection E as E0 E. exfalso. apply Hw. rewrite E. apply in_or_app. right. now left.
  - destruct a' as [|y a']; cbn in E.
    + injection E as E0 E. exfalso. apply Hw'. rewrite <- E. apply in_or_app. right. now left.
    + injection E as E0 E. destruct (IH a' E) as [-> ->]; subst. auto.
Qed.
Lemma csv_split (a a' : text) : a ++ txt ".csv" = a' ++ txt ".csv" -> a = a'.
Proof. apply app_inv_tail. Qed.
Lemma us_dec z : ~ In us (dec z).
Proof.
  intros H. destruct (dec_chars _ _ H) as [(n & Hn & E)|E]; [|discriminate].
  apply (f_equal nat_of_ascii) in E. rewrite nat_ascii_embedding in E by lia. cbn in E. lia.
Qed.
