(** Chebyshev routines in any arithmetic: no access out of bounds for n >= 2, sizes preserved, and
    the result does not depend on the previous content of the output array. *)
From Verif Require Import Base BaseLemmas ForList Arith MCheb PMake PCheb PCheb2.

Section G.
Context {F : Type} {AF : Arith F}.
Variables (b : build) (g : cheb F).
Hypothesis Hn : 2 <= ch_n g.
Hypothesis Hp : ch_plan g = true.
Local Notation n := (ch_n g).

Lemma mod_loop (lo hi : nat) (h : nat -> F -> F) (v : list F) : hi <= length v ->
  exists out, for_ lo hi (fun i v => let! x := v.[i] in v.[i <- h i x]) v = Ok out /\ length out = length v.
Proof.
  intros Hhi. destruct (for_modify (length v) lo hi (fun i v => let! x := vget v i in vset v i (h i x)) h v) as (out & E & L & _); eauto.
  intros i o x Hi HL Hx. unfold vget. rewrite Hx. cbn [bind]. now rewrite vset_ok by lia.
Qed.

Lemma to_ch_total v w : length v = n -> length w = n -> exists out, to_ch b g v w = Ok out /\ length out = n.
Proof.
  intros Hv Hw. unfold to_ch. rewrite !assert_true by (apply Nat.eqb_eq; auto). cbn [bind].
  rewrite execute_ok by auto. cbn [bind]. pose proof (redft00_length v) as HL.
  rewrite (vget_ok _ _ f0) by lia. cbn [bind]. rewrite vset_ok by lia. cbn [bind].
  rewrite wsub_le by lia.
  rewrite (vget_ok _ _ f0) by (rewrite upd_length; lia). cbn [bind].
  rewrite vset_ok by (rewrite upd_length; lia). cbn [bind].
  destruct (mod_loop 1 (n - 1) (fun i x => (x / fnat (n - 1))%f) (upd (upd (redft00 v) 0 (nth 0 (redft00 v) f0 / (#2 * fnat (n - 1)))%f) (n - 1)
     (nth (n - 1) (upd (redft00 v) 0 (nth 0 (redft00 v) f0 / (#2 * fnat (n - 1)))%f) f0 / (#2 * fnat (n - 1)))%f)) as (out & E & L).
  { rewrite !upd_length. lia. }
  exists out. split; auto. rewrite L, !upd_length. lia.
Qed.
Lemma to_ch_indep v w w' : length v = n -> length w = n -> length w' = n -> to_ch b g v w = to_ch b g v w'.
Proof.
  intros Hv Hw Hw'. unfold to_ch. rewrite !assert_true by (apply Nat.eqb_eq; auto). cbn [bind].
  now rewrite !execute_ok by auto.
Qed.
Lemma to_po_total v w : length v = n -> length w = n ->
  exists c out, to_po b g v w = Ok (c, out) /\ length c = n /\ length out = n.
Proof.
  intros Hv Hw. unfold to_po. rewrite !assert_true by (apply Nat.eqb_eq; auto). cbn [bind]. rewrite wsub_le by lia.
  destruct (mod_loop 1 (n - 1) (fun i x => (x / #2)%f) v) as (c & E & L); [lia|].
  rewrite E. cbn [bind]. rewrite execute_ok by (auto; lia). cbn [bind]. exists c, (redft00 c).
  split; auto. split; [lia|]. rewrite redft00_length. lia.
Qed.
Lemma to_po_indep v w w' : length v = n -> length w = n -> length w' = n -> to_po b g v w = to_po b g v w'.
Proof.
  intros Hv Hw Hw'. unfold to_po. rewrite !assert_true by (apply Nat.eqb_eq; auto). cbn [bind]. rewrite wsub_le by lia.
  destruct (mod_loop 1 (n - 1) (fun i x => (x / #2)%f) v) as (c & E & L); [lia|].
  rewrite E. cbn [bind]. now rewrite !execute_ok by (auto; lia).
Qed.

Lemma copy_all (src dst : list F) : length src = n -> length dst = n ->
  for_ 0 n (fun i dv => let! x := src.[i] in dv.[i <- x]) dst = Ok src.
Proof.
  intros Hs Hd. rewrite (for_ext 0 n _ (fun i dv => vset dv i (nth i src f0))).
  - rewrite for_fill by auto. f_equal. apply (nth_ext _ _ f0 f0); [rewrite map_length, seq_length; lia|].
    intros i Hi. rewrite map_length, seq_length in Hi. now rewrite nth_map_seq.
  - intros k s Hk. now rewrite (vget_ok _ _ f0) by lia.
Qed.

Lemma cheb_der_total v : length v = n -> exists out, length out = n /\ forall dv, length dv = n -> cheb_der b g v dv = Ok out.
Proof.
  intros Hv.
  assert (Hz : length (vec n (@f0 F _)) = n) by apply vec_length.
  destruct (to_ch_total v (vec n f0) Hv Hz) as (c & E & L).
  set (c2 := upd (upd c (n - 1) f0) (n - 2) f0).
  assert (L2 : length c2 = n) by (unfold c2; now rewrite !upd_length).
  destruct (for_down_inv (fun _ (s : list F) => length s = n) (n - 2) 1 (fun i ch_tmp =>
    let! d := c2.[i] in let! c := ch_tmp.[i + 1] in ch_tmp.[wsub i 1 <- (#2 * fnat i * d + c)%f]) c2) as (c3 & E3 & L3); auto.
  { lia. }
  { intros i s Hi Hs. rewrite (vget_ok c2 _ f0) by lia. cbn [bind]. rewrite (vget_ok s _ f0) by lia. cbn [bind].
    rewrite wsub_le by lia. rewrite vset_ok by lia. eexists. split; [reflexivity|]. now rewrite upd_length. }
  set (c4 := upd c3 0 (nth 0 c3 f0 / #2)%f). assert (L4 : length c4 = n) by (unfold c4; now rewrite upd_length).
  destruct (to_po_total c4 (vec n f0) L4 Hz) as (c5 & o & E5 & L5 & Lo).
  destruct (mod_loop 0 n (fun i x => (x / ch_jac g)%f) o) as (out & Eo & Lout); [lia|].
  exists out. split; [lia|]. intros dv Hd. unfold cheb_der.
  rewrite !assert_true by (apply Nat.eqb_eq; auto). cbn [bind]. rewrite E. cbn [bind].
  rewrite !wsub_le by lia. rewrite vset_ok by lia. cbn [bind]. rewrite vset_ok by (rewrite upd_length; lia). cbn [bind].
  fold c2. rewrite (copy_all c2 dv) by auto. cbn [bind]. rewrite E3. cbn [bind].
  rewrite (vget_ok c3 _ f0) by lia. cbn [bind]. rewrite vset_ok by lia. cbn [bind]. fold c4.
  rewrite (to_po_indep c4 c2 (vec n f0)) by auto. rewrite E5. cbn [bind]. exact Eo.
Qed.

Lemma cheb_filter_total v : length v = n -> length (ch_low_pass g) = n -> exists out, cheb_filter b g v = Ok out /\ length out = n.
Proof.
  intros Hv Hl.
  assert (Hz : length (vec n (@f0 F _)) = n) by apply vec_length.
  destruct (to_ch_total v (vec n f0) Hv Hz) as (c & E & L).
  unfold cheb_filter. rewrite !assert_true by (apply Nat.eqb_eq; auto). cbn [bind]. rewrite E. cbn [bind].
  destruct (mod_loop 0 n (fun i x => (x * nth i (ch_low_pass g) f0)%f) c) as (c1 & E1 & L1); [lia|].
  rewrite (for_ext 0 n _ (fun i v => let! x := vget v i in vset v i (x * nth i (ch_low_pass g) f0)%f)).
  2:{ intros k s Hk. destruct (vget s k); cbn [bind]; auto. now rewrite (vget_ok (ch_low_pass g) _ f0) by lia. }
  rewrite E1. cbn [bind]. destruct (to_po_total c1 v) as (c2 & o & E2 & _ & Lo); [lia|auto|]. rewrite E2. cbn [bind]. eauto.
Qed.
End G.
