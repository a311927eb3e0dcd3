(** Chebyshev polynomials, and the derivative recurrence of Cheb::der. *)
From Coq Require Import Reals Lra List.
From Coquelicot Require Import Coquelicot.
From Verif Require Import Base Arith BaseLemmas PMake MCheb Spec PSum PFdR PCheb.
Local Open Scope R_scope.

Lemma chebT_SS k x : chebT (S (S k)) x = 2 * x * chebT (S k) x - chebT k x.
Proof. unfold chebT. simpl. destruct (chebT2 k x) as [a c]. reflexivity. Qed.
Lemma chebT_0 x : chebT 0 x = 1. Proof. reflexivity. Qed.
Lemma chebT_1 x : chebT 1 x = x. Proof. reflexivity. Qed.
Lemma pair_ind (P : nat -> Prop) : P 0%nat -> P 1%nat -> (forall k, P k -> P (S k) -> P (S (S k))) -> forall k, P k.
Proof. intros H0 H1 H k. assert (G : P k /\ P (S k)); [|tauto]. induction k as [|k [A B]]; auto. Qed.

Lemma chebT_cos k th : chebT k (cos th) = cos (INR k * th).
Proof.
  induction k as [| |k A B] using pair_ind.
  - rewrite chebT_0. simpl. rewrite Rmult_0_l. symmetry. apply cos_0.
  - rewrite chebT_1. simpl. f_equal. ring.
  - rewrite chebT_SS, A, B.
    replace (INR (S (S k)) * th) with (INR (S k) * th + th) by (rewrite !S_INR; ring).
    replace (INR k * th) with (INR (S k) * th - th) by (rewrite !S_INR; ring).
    rewrite cos_plus, cos_minus. ring.
Qed.

(** [Um k] = U_{k-1}, second kind, with U_{-1} = 0 *)
Fixpoint Um2 (k : nat) (x : R) : R * R :=
  match k with O => (0, 1) | S k' => let (a, b) := Um2 k' x in (b, 2 * x * b - a) end.
Definition Um (k : nat) (x : R) : R := fst (Um2 k x).
Lemma Um_SS k x : Um (S (S k)) x = 2 * x * Um (S k) x - Um k x.
Proof. unfold Um. simpl. destruct (Um2 k x) as [a c]. reflexivity. Qed.
Lemma T_U k x : chebT (S k) x = x * Um (S k) x - Um k x.
Proof.
  induction k as [| |k A B] using pair_ind.
  - unfold chebT, Um; simpl; ring.
  - unfold chebT, Um; simpl; ring.
  - rewrite chebT_SS, A, B, (Um_SS (S k)), (Um_SS k). ring.
Qed.
Lemma T_Udiff k x : chebT (S k) x = (Um (S (S k)) x - Um k x) / 2.
Proof. rewrite T_U, Um_SS. field. Qed.

Lemma chebT_is_derive k x : is_derive (chebT k) x (INR k * Um k x).
Proof.
  induction k as [| |k A B] using pair_ind.
  - apply (is_derive_ext (fun _ => 1)); [intros; reflexivity|]. auto_derive; auto. unfold Um; simpl; ring.
  - apply (is_derive_ext (fun x => x)); [intros; reflexivity|]. auto_derive; auto. unfold Um; simpl; ring.
  - apply (is_derive_ext (fun x => 2 * x * chebT (S k) x - chebT k x)); [intros; now rewrite chebT_SS|].
    auto_derive.
    + split; [eexists; exact B| split; [eexists; exact A|auto]].
    + replace (Derive (fun y => chebT (S k) y) x) with (INR (S k) * Um (S k) x) by (symmetry; apply is_derive_unique; exact B).
      replace (Derive (fun y => chebT k y) x) with (INR k * Um k x) by (symmetry; apply is_derive_unique; exact A).
      rewrite T_U, (Um_SS k), !S_INR. ring.
Qed.

(** sums of Chebyshev polynomials *)
Definition chebsum (m : nat) (e : nat -> R) (y : R) : R := Rsum m (fun k => e k * chebT k y).
Lemma chebsum_is_derive m e y : is_derive (chebsum m e) y (Rsum m (fun k => e k * (INR k * Um k y))).
Proof.
  unfold chebsum. induction m as [|m IH]; cbn [Rsum].
  - apply (is_derive_const (K:=R_AbsRing) (V:=R_NormedModule) 0).
  - apply (is_derive_plus (K:=R_AbsRing) (V:=R_NormedModule)); [exact IH|].
    apply (is_derive_scal (fun y => chebT m y) y (e m)). apply chebT_is_derive.
Qed.

Lemma chebsum_add1 m e j c : (j < m)%nat -> exists e', forall y, chebsum m e y + c * chebT j y = chebsum m e' y.
Proof.
  intros Hj. exists (fun k => e k + if Nat.eqb k j then c else 0). intros y. unfold chebsum.
  rewrite (Rsum_ext m (fun k => (e k + (if Nat.eqb k j then c else 0)) * chebT k y)
     (fun k => e k * chebT k y + (if Nat.eqb k j then c else 0) * chebT k y)) by (intros; ring).
  rewrite Rsum_add. f_equal. rewrite (Rsum_single m _ j); auto.
  - now rewrite Nat.eqb_refl.
  - intros i _ Hi. destruct (Nat.eqb_spec i j); [lia|ring].
Qed.
Lemma chebsum_extend m e : exists e', forall y, chebsum m e y = chebsum (S m) e' y.
Proof.
  exists (fun k => if Nat.ltb k m then e k else 0). intros y. unfold chebsum. cbn [Rsum].
  rewrite (Rsum_ext m _ (fun k => (if Nat.ltb k m then e k else 0) * chebT k y)).
  - destruct (Nat.ltb_spec m m); [lia|]. ring.
  - intros i Hi. destruct (Nat.ltb_spec i m); [reflexivity|lia].
Qed.
Lemma chebsum_mulx m e : exists e', forall y, y * chebsum m e y = chebsum (S m) e' y.
Proof.
  induction m as [|m (e1 & H1)].
  - exists (fun _ => 0). intros y. unfold chebsum. simpl. ring.
  - destruct (chebsum_extend (S m) e1) as (e2 & H2).
    destruct m as [|m].
    + destruct (chebsum_add1 2 e2 1 (e 0%nat)) as (e3 & H3); [lia|]. exists e3. intros y. rewrite <- H3, <- H2, <- H1.
      unfold chebsum. cbn [Rsum]. rewrite chebT_0, chebT_1. ring.
    + destruct (chebsum_add1 (S (S (S m))) e2 (S (S m)) (e (S m) / 2)) as (e3 & H3); [lia|].
      destruct (chebsum_add1 (S (S (S m))) e3 m (e (S m) / 2)) as (e4 & H4); [lia|].
      exists e4. intros y. rewrite <- H4, <- H3, <- H2, <- H1. rewrite chebT_SS.
      unfold chebsum. cbn [Rsum]. field.
Qed.
Lemma poly_chebsum d : exists e, forall y, poly d y = chebsum (length d) e y.
Proof.
  induction d as [|a d (e & H)]; [exists (fun _ => 0); reflexivity|].
  destruct (chebsum_mulx (length d) e) as (e1 & H1).
  destruct (chebsum_add1 (S (length d)) e1 0 a) as (e2 & H2); [lia|].
  exists e2. intros y. simpl. rewrite <- H2, <- H1, <- H, chebT_0. ring.
Qed.
Lemma poly_scale d s : exists d', length d' = length d /\ forall y, poly d (s * y) = poly d' y.
Proof.
  induction d as [|a d (e & L & H)]; [exists []; auto|].
  exists (a :: map (fun c => s * c) e). split; [simpl; now rewrite map_length, L|].
  intros y. simpl. rewrite H. assert (E : poly (map (fun c => s * c) e) y = s * poly e y).
  { clear. induction e as [|b e IH]; simpl; [ring|]. rewrite IH. ring. }
  rewrite E. ring.
Qed.

(** ** the recurrence *)
Lemma sum_by_parts (d : nat -> R) (y : R) M :
  Rsum (S (S M)) (fun j => (if Nat.eqb j 0 then d j / 2 else d j) * chebT j y)
  = / 2 * Rsum M (fun k => (d k - d (S (S k))) * Um (S k) y)
    + / 2 * (d M * Um (S M) y + d (S M) * Um (S (S M)) y).
Proof.
  induction M as [|M IH].
  - simpl. rewrite chebT_0, chebT_1. unfold Um. simpl. field.
  - change (Rsum (S (S (S M))) ?t) with (Rsum (S (S M)) t + t (S (S M))). rewrite IH.
    cbn [Rsum Nat.eqb]. rewrite (T_Udiff (S M)). field.
Qed.

Lemma for_down_inv {S} (P : nat -> S -> Prop) hi lo (body : nat -> S -> res S) s :
  (1 <= lo)%nat -> (lo <= hi + 1)%nat -> P hi s ->
  (forall i s, (lo <= i <= hi)%nat -> P i s -> exists s', body i s = Ok s' /\ P (i - 1)%nat s') ->
  exists s', for_down hi lo body s = Ok s' /\ P (lo - 1)%nat s'.
Proof.
  intros H1 Hle H0 Hs. unfold for_down. remember (hi + 1 - lo)%nat as c eqn:Hc.
  revert hi s Hle H0 Hs Hc. induction c as [|c IH]; intros hi s Hle H0 Hs Hc; simpl.
  - exists s. split; auto. replace (lo - 1)%nat with hi by lia. auto.
  - destruct (Hs hi s) as (s1 & E1 & P1); [lia|auto|]. rewrite E1. simpl.
    apply IH; auto; try lia. intros i t Hi. apply Hs. lia.
Qed.

Section Der.
Variables (b : build) (g : cheb R) (n : nat) (lower upper : R).
Hypothesis Hn : (2 <= n)%nat.
Hypothesis W : cheb_wf g n lower upper.
Let N := (n - 1)%nat.

Lemma cheb_der_val v dv : length v = n -> length dv = n ->
  cheb_der b g v dv = Ok (map (fun i =>
    Rsum (n - 2) (fun k => ana N (fun j => nth j v 0) k * (INR k * Um k (cos (PI * INR i / INR N)))) / ((upper - lower) / 2)) (seq 0 n)).
Proof.
  intros Hv Hd. unfold cheb_der. rewrite (wf_n _ _ _ _ W).
  rewrite !assert_true by (apply Nat.eqb_eq; auto). cbn [bind].
  rewrite (to_ch_val b g n lower upper) by (auto; apply vec_length). cbn [bind]. fold N.
  rewrite !wsub_le by lia. fold N. set (a := ana N (fun j => nth j v 0)).
  set (v0 := map a (seq 0 n)). assert (L0 : length v0 = n) by (unfold v0; now rewrite map_length, seq_length).
  rewrite vset_ok by (unfold N; lia). cbn [bind]. rewrite vset_ok by (rewrite upd_length; lia). cbn [bind].
  set (v2 := upd (upd v0 N f0) (n - 2) f0).
  assert (L2 : length v2 = n) by (unfold v2; now rewrite !upd_length).
  assert (V2 : forall k, (k < n)%nat -> nth k v2 0 = if Nat.ltb k (n - 2) then a k else 0).
  { intros k Hk. unfold v2. destruct (Nat.ltb_spec k (n - 2)).
    - rewrite !nth_upd_neq by (unfold N; lia). unfold v0. now rewrite nth_map_seq.
    - destruct (Nat.eq_dec k (n - 2)) as [->|].
      + now rewrite nth_upd_eq by (rewrite upd_length; lia).
      + rewrite nth_upd_neq by lia. assert (k = N) by (unfold N; lia). subst k. now rewrite nth_upd_eq by lia. }
  match goal with |- bind (for_ _ _ ?bd ?o) _ = _ => destruct (for_mod_R n 0 n bd (fun i _ => nth i v2 0) o) as (dv1 & E1 & L1 & D1) end; auto.
  { intros i o x Hi Ho Hx. rewrite (vget_ok v2 _ 0) by lia. cbn [bind]. now rewrite vset_ok by lia. }
  rewrite E1. cbn [bind].
  assert (D1' : forall k, (k < n)%nat -> nth k dv1 0 = nth k v2 0).
  { intros k Hk. rewrite D1. destruct (Nat.leb_spec 0 k), (Nat.ltb_spec k n); cbn [andb]; auto; lia. }
  match goal with |- bind (for_down _ _ ?bd _) _ = _ =>
    destruct (for_down_inv (fun i s => length s = n /\ nth (n - 2) s 0 = 0 /\ nth N s 0 = 0 /\
       forall k, (i <= k)%nat -> (k + 2 < n)%nat -> nth k s 0 = 2 * INR (k + 1) * nth (k + 1) v2 0 + nth (k + 2) s 0)
      (n - 2) 1 bd v2) as (s & Es & Ls & Z1 & Z2 & Rs) end; try lia.
  { repeat split; auto.
    - rewrite V2 by lia. destruct (Nat.ltb_spec (n - 2) (n - 2)); [lia|reflexivity].
    - rewrite V2 by (unfold N; lia). destruct (Nat.ltb_spec N (n - 2)); [unfold N in *; lia|reflexivity].
    - intros k H1 H2. lia. }
  { intros i s Hi (Ls & Z1 & Z2 & Rs). rewrite (vget_ok dv1 _ 0) by lia. cbn [bind].
    rewrite (vget_ok s _ 0) by lia. cbn [bind]. rewrite wsub_le by lia. rewrite vset_ok by lia.
    eexists. split; [reflexivity|]. rewrite upd_length. split; auto.
    split; [rewrite nth_upd_neq by lia; auto|]. split; [rewrite nth_upd_neq by (unfold N; lia); auto|].
    intros k H1 H2. destruct (Nat.eq_dec k (i - 1)) as [->|Hne].
    - rewrite nth_upd_eq by lia. rewrite nth_upd_neq by lia. rewrite D1' by lia. rewrite fnat_INR.
      replace (i - 1 + 1)%nat with i by lia. replace (i - 1 + 2)%nat with (i + 1)%nat by lia. reflexivity.
    - rewrite !nth_upd_neq by lia. apply Rs; lia. }
  rewrite Es. cbn [bind]. rewrite (vget_ok s _ 0) by lia. cbn [bind]. rewrite vset_ok by lia. cbn [bind].
  rewrite (to_po_val b g n lower upper) by (auto; rewrite upd_length; auto). cbn [bind].
  match goal with |- for_ _ _ ?bd ?o = _ => destruct (for_mod_R n 0 n bd (fun i x => x / ((upper - lower) / 2)) o) as (out & Eo & Lo & Do) end; auto.
  { now rewrite map_length, seq_length. }
  { intros i o x Hi Ho Hx. rewrite (vget_some _ _ _ Hx). cbn [bind]. rewrite vset_ok by lia. rewrite (wf_jac _ _ _ _ W). reflexivity. }
  rewrite Eo. f_equal. apply (vec_ext _ _ 0); [now rewrite map_length, seq_length|]. rewrite Lo. intros i Hi.
  rewrite nth_map_seq by auto. rewrite Do. destruct (Nat.leb_spec 0 i), (Nat.ltb_spec i n); cbn [andb]; try lia.
  f_equal. rewrite nth_map_seq by auto. unfold syn.
  set (y := cos (PI * INR i / INR N)).
  assert (HN0 : 0 < INR N) by (apply lt_0_INR; unfold N; lia).
  fold N.
  replace (S N) with (S (S (n - 2))) by (unfold N; lia).
  rewrite (Rsum_ext _ _ (fun j => (if Nat.eqb j 0 then nth j s 0 / 2 else nth j s 0) * chebT j y)).
  - rewrite (sum_by_parts (fun j => nth j s 0)). replace (S (n - 2)) with N by (unfold N; lia). rewrite Z1, Z2.
    rewrite !Rmult_0_l, Rplus_0_l, Rmult_0_r, Rplus_0_r, <- Rsum_scal.
    (* both sides as sums over k < n-2, shifted by one *)
    transitivity (Rsum (n - 2) (fun k => nth (S k) v2 0 * (INR (S k) * Um (S k) y))).
    + apply Rsum_ext. intros k Hk. rewrite (Rs k) by lia.
      replace (k + 1)%nat with (S k) by lia. replace (k + 2)%nat with (S (S k)) by lia. field.
    + remember (fun k => nth k v2 0 * (INR k * Um k y)) as t eqn:Et.
      replace (Rsum (n - 2) (fun k => nth (S k) v2 0 * (INR (S k) * Um (S k) y))) with (Rsum (S (n - 2)) t).
      2:{ rewrite Rsum_shift. subst t. simpl (INR 0). rewrite Rmult_0_l, Rmult_0_r, Rplus_0_l. reflexivity. }
      cbn [Rsum]. replace (t (n - 2)%nat) with 0.
      * rewrite Rplus_0_r. apply Rsum_ext. intros k Hk. subst t. cbv beta. f_equal. rewrite V2 by lia.
        destruct (Nat.ltb_spec k (n - 2)); [reflexivity|lia].
      * subst t. cbv beta. rewrite V2 by lia. destruct (Nat.ltb_spec (n - 2) (n - 2)); [lia|ring].
  - intros j Hj. f_equal.
    + destruct (Nat.eqb_spec j 0) as [->|]; [now rewrite nth_upd_eq by lia | now rewrite nth_upd_neq by lia].
    + unfold y. rewrite chebT_cos. unfold cc. f_equal. field. lra.
Qed.
End Der.
