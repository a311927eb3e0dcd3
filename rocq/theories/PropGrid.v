(** * Properties C01-C05: grid indexing and rows.  All theorems hold for every [Arith]. *)
From Verif Require Import Base BaseLemmas Arith MFd MCheb MSphere MGrid PGrid.

(** ** C01 *)
(** grid.hpp:280-287 with every product and sum reduced modulo 2^64, as size_t arithmetic does. *)
Definition mul64 (a b : Z) : Z := u64 (a * b).
Definition add64 (a b : Z) : Z := u64 (a + b).
Definition indx64 (b : build) (nlat nphi ix it ip : Z) : Z :=
  if contiguous b then add64 (add64 (mul64 (mul64 nphi nlat) ix) (mul64 nlat ip)) it
  else add64 (add64 (mul64 (mul64 nlat nphi) ix) (mul64 nphi it)) ip.

Theorem C01_index_bijection b nx nlat nphi :
  (forall ix it ip, ix < nx -> it < nlat -> ip < nphi ->
     ix_R_th_ph b nlat nphi ix it ip < nx * nlat * nphi) /\
  (forall ix it ip ix' it' ip',
     ix < nx -> it < nlat -> ip < nphi -> ix' < nx -> it' < nlat -> ip' < nphi ->
     ix_R_th_ph b nlat nphi ix it ip = ix_R_th_ph b nlat nphi ix' it' ip' ->
     ix = ix' /\ it = it' /\ ip = ip') /\
  (forall k, k < nx * nlat * nphi ->
     exists ix it ip, ix < nx /\ it < nlat /\ ip < nphi /\ ix_R_th_ph b nlat nphi ix it ip = k).
Proof.
  split; [|split].
  - intros. now apply ix_R_th_ph_lt.
  - intros. eapply ix_R_th_ph_inj; eauto.
  - intros. now apply ix_R_th_ph_surj.
Qed.

Theorem C01_index_no_overflow b nx nlat nphi ix it ip :
  (Z.of_nat (nx * nlat * nphi) < 2 ^ 64)%Z ->
  ix < nx -> it < nlat -> ip < nphi ->
  indx64 b (Z.of_nat nlat) (Z.of_nat nphi) (Z.of_nat ix) (Z.of_nat it) (Z.of_nat ip)
  = Z.of_nat (ix_R_th_ph b nlat nphi ix it ip).
Proof.
  intros HB Hx Ht Hp. pose proof (ix_R_th_ph_lt b nx nlat nphi ix it ip Hx Ht Hp) as Hlt.
  assert (E : forall z, (0 <= z < 2 ^ 64)%Z -> u64 z = z) by (intros; unfold u64; now apply Z.mod_small).
  assert (HN : (Z.of_nat nphi * Z.of_nat nlat <= Z.of_nat (nx * nlat * nphi))%Z).
  { rewrite <- Nat2Z.inj_mul. apply inj_le. nia. }
  unfold indx64, add64, mul64, ix_R_th_ph in *. destruct (contiguous b).
  - assert (H1 : (0 <= Z.of_nat nphi * Z.of_nat nlat < 2 ^ 64)%Z) by lia.
    assert (H2 : (Z.of_nat (nphi * nlat * ix + nlat * ip + it) < 2 ^ 64)%Z) by lia.
    rewrite !Nat2Z.inj_add, !Nat2Z.inj_mul in H2.
    rewrite !Nat2Z.inj_add, !Nat2Z.inj_mul.
    rewrite (E (Z.of_nat nphi * Z.of_nat nlat)%Z) by lia.
    rewrite (E (Z.of_nat nphi * Z.of_nat nlat * Z.of_nat ix)%Z) by lia.
    rewrite (E (Z.of_nat nlat * Z.of_nat ip)%Z) by lia.
    rewrite (E (_ + Z.of_nat nlat * Z.of_nat ip)%Z) by lia.
    rewrite E by lia. reflexivity.
  - assert (H1 : (0 <= Z.of_nat nphi * Z.of_nat nlat < 2 ^ 64)%Z) by lia.
    assert (H2 : (Z.of_nat (nlat * nphi * ix + nphi * it + ip) < 2 ^ 64)%Z) by lia.
    rewrite !Nat2Z.inj_add, !Nat2Z.inj_mul in H2.
    rewrite !Nat2Z.inj_add, !Nat2Z.inj_mul.
    rewrite (E (Z.of_nat nlat * Z.of_nat nphi)%Z) by lia.
    rewrite (E (Z.of_nat nlat * Z.of_nat nphi * Z.of_nat ix)%Z) by lia.
    rewrite (E (Z.of_nat nphi * Z.of_nat it)%Z) by lia.
    rewrite (E (_ + Z.of_nat nphi * Z.of_nat it)%Z) by lia.
    rewrite E by lia. reflexivity.
Qed.
Example C01_nonvacuous :
  ix_R_th_ph (Build false true true) 2 3 1 1 2 = 11 /\ ix_R_th_ph (Build false false true) 2 3 1 1 2 = 11 /\
  indx64 (Build false true true) 2 3 4 1 2 = 29%Z.
Proof. repeat split; reflexivity. Qed.

(** ** C02 *)
Section C02.
Context {F : Type} {AF : Arith F}.

Theorem C02_shell_layout (g : grid F) ix it ip :
  it < g_nlat g -> ip < g_nphi g ->
  sp_nlat (g_sphere g) = g_nlat g -> sp_nphi (g_sphere g) = g_nphi g ->
  indx_R_th_ph g ix it ip = g_nlat g * g_nphi g * ix + sp_indx (g_bld g) (g_sphere g) it ip /\
  indx_th_ph g it ip = sp_indx (g_bld g) (g_sphere g) it ip /\
  sp_indx (g_bld g) (g_sphere g) it ip < g_nlat g * g_nphi g.
Proof.
  intros Ht Hp E1 E2. unfold indx_R_th_ph, indx_th_ph, sp_indx.
  rewrite ix_R_th_ph_eq, E1, E2.
  pose proof (ix_th_ph_lt (g_bld g) (g_nlat g) (g_nphi g) it ip Ht Hp).
  unfold ix_th_ph in *. destruct (contiguous (g_bld g)); auto.
Qed.

(** the sizes of the sphere object are those of the grid that owns it *)
Theorem C02_sphere_sizes b h cl0 Rmin0 Rmax0 nx nl nm nlat nphi (g : grid F) :
  Grid_make b h cl0 Rmin0 Rmax0 nx nl nm nlat nphi = Ok g ->
  sp_nlat (g_sphere g) = g_nlat g /\ sp_nphi (g_sphere g) = g_nphi g /\
  g_nlat g = nlat /\ g_nphi g = nphi /\ g_nx g = nx /\ g_nl g = nl /\ g_bld g = b.
Proof.
  unfold Grid_make, Sphere_make. intros H.
  repeat match type of H with
  | bind ?m _ = Ok _ => destruct m eqn:?; cbn [bind] in H; try discriminate H
  | (let '(_, _) := ?x in _) = Ok _ => destruct x
  end.
  injection H as <-. cbn.
  repeat match goal with
  | H : bind ?m _ = Ok _ |- _ => destruct m eqn:?; cbn [bind] in H; try discriminate H
  | H : Ok _ = Ok _ |- _ => injection H as <-
  end. cbn. repeat split; reflexivity.
Qed.

Theorem C02_planes_bijective (b : build) (n m : nat) :
  (forall i j, i < n -> j < m -> ix_r_th m i j < n * m /\ ix_r_ph m i j < n * m /\ ix_r_l m i j < n * m) /\
  (forall i j i' j', j < m -> j' < m ->
     (ix_r_th m i j = ix_r_th m i' j' \/ ix_r_ph m i j = ix_r_ph m i' j' \/ ix_r_l m i j = ix_r_l m i' j') ->
     i = i' /\ j = j') /\
  (forall k, k < n * m -> exists i j, i < n /\ j < m /\ ix_r_th m i j = k /\ ix_r_ph m i j = k /\ ix_r_l m i j = k) /\
  (forall i j, i < n -> j < m -> ix_th_ph b n m i j < n * m) /\
  (forall i j i' j', i < n -> j < m -> i' < n -> j' < m ->
     ix_th_ph b n m i j = ix_th_ph b n m i' j' -> i = i' /\ j = j') /\
  (forall k, k < n * m -> exists i j, i < n /\ j < m /\ ix_th_ph b n m i j = k).
Proof.
  unfold ix_r_th, ix_r_ph, ix_r_l. split; [|split; [|split; [|split; [|split]]]].
  - intros. nia.
  - intros i j i' j' Hj Hj' [H|[H|H]]; apply mul_add_inj in H; tauto.
  - intros k Hk. rewrite Nat.mul_comm in Hk. destruct (mul_add_surj m n k Hk) as (a & c & ? & ? & ->).
    exists a, c. auto.
  - intros. now apply ix_th_ph_lt.
  - intros. eapply ix_th_ph_inj; eauto.
  - intros. now apply ix_th_ph_surj.
Qed.
End C02.

(** ** C03 *)
Section C03.
Context {F : Type} {AF : Arith F}.
Implicit Types (g : grid F) (v row out : list F).

Local Ltac inj := intros; match goal with H : ix_R_th_ph _ _ _ _ _ _ = _ |- _ => apply ix_R_th_ph_inj in H; auto; lia end.
Local Ltac inb := intros; unfold g_n3 in *; match goal with H : length _ = _ |- _ => rewrite H end; apply ix_R_th_ph_lt; auto.

(** radial lines *)
Theorem C03_row_R g it ip row v :
  it < g_nlat g -> ip < g_nphi g -> length row = g_nx g -> length v = g_n3 g ->
  exists v', set_row_R g it ip row v = Ok v' /\ length v' = length v /\
    (forall ix, ix < g_nx g -> nth_error v' (indx_R_th_ph g ix it ip) = nth_error row ix) /\
    (forall jx jt jp, jt < g_nlat g -> jp < g_nphi g -> (jt, jp) <> (it, ip) ->
       nth_error v' (indx_R_th_ph g jx jt jp) = nth_error v (indx_R_th_ph g jx jt jp)) /\
    (forall out, length out = g_nx g -> get_row_R g it ip v' out = Ok row).
Proof.
  intros Ht Hp Hr Hv. unfold set_row_R, get_row_R, indx_R_th_ph in *. ok_asserts.
  destruct (set_get (g_nx g) (fun ix => ix_R_th_ph (g_bld g) (g_nlat g) (g_nphi g) ix it ip) row v)
    as (v' & E & L & H1 & H2 & H3); auto.
  { intros i Hi. rewrite Hv. apply ix_R_th_ph_lt; auto. }
  { intros i j _ _ E. apply ix_R_th_ph_inj in E; auto; lia. }
  exists v'. split; [exact E|]. repeat split; auto.
  - intros jx jt jp Ht' Hp' Hne. apply H2. intros i Hi E'. apply ix_R_th_ph_inj in E'; auto.
    destruct E' as (_ & -> & ->). congruence.
  - intros out Ho. ok_asserts. now apply H3.
Qed.
Theorem C03_get_row_R g it ip v out :
  it < g_nlat g -> ip < g_nphi g -> length v = g_n3 g -> length out = g_nx g ->
  exists r, get_row_R g it ip v out = Ok r /\ length r = g_nx g /\
    forall ix, ix < g_nx g -> nth_error r ix = nth_error v (indx_R_th_ph g ix it ip).
Proof.
  intros Ht Hp Hv Ho. unfold get_row_R, indx_R_th_ph. ok_asserts. apply get_spec; auto.
  intros i Hi. rewrite Hv. apply ix_R_th_ph_lt; auto.
Qed.

(** theta lines *)
Theorem C03_row_th g ix ip row v :
  ix < g_nx g -> ip < g_nphi g -> length row = g_nlat g -> length v = g_n3 g ->
  exists v', set_row_th g ix ip row v = Ok v' /\ length v' = length v /\
    (forall it, it < g_nlat g -> nth_error v' (indx_R_th_ph g ix it ip) = nth_error row it) /\
    (forall jx jt jp, jt < g_nlat g -> jp < g_nphi g -> (jx, jp) <> (ix, ip) ->
       nth_error v' (indx_R_th_ph g jx jt jp) = nth_error v (indx_R_th_ph g jx jt jp)) /\
    (forall out, length out = g_nlat g -> get_row_th g ix ip v' out = Ok row).
Proof.
  intros Hx Hp Hr Hv. unfold set_row_th, get_row_th, indx_R_th_ph in *. ok_asserts.
  destruct (set_get (g_nlat g) (fun it => ix_R_th_ph (g_bld g) (g_nlat g) (g_nphi g) ix it ip) row v)
    as (v' & E & L & H1 & H2 & H3); auto.
  { intros i Hi. rewrite Hv. apply ix_R_th_ph_lt; auto. }
  { intros i j ? ? E. apply ix_R_th_ph_inj in E; auto; lia. }
  exists v'. split; [exact E|]. repeat split; auto.
  - intros jx jt jp Ht' Hp' Hne. apply H2. intros i Hi E'. apply ix_R_th_ph_inj in E'; auto.
    destruct E' as (-> & _ & ->). congruence.
  - intros out Ho. ok_asserts. now apply H3.
Qed.
Theorem C03_get_row_th g ix ip v out :
  ix < g_nx g -> ip < g_nphi g -> length v = g_n3 g -> length out = g_nlat g ->
  exists r, get_row_th g ix ip v out = Ok r /\ length r = g_nlat g /\
    forall it, it < g_nlat g -> nth_error r it = nth_error v (indx_R_th_ph g ix it ip).
Proof.
  intros Ht Hp Hv Ho. unfold get_row_th, indx_R_th_ph. ok_asserts. apply get_spec; auto.
  intros i Hi. rewrite Hv. apply ix_R_th_ph_lt; auto.
Qed.
Theorem C03_get_row_ph g ix it v out :
  ix < g_nx g -> it < g_nlat g -> length v = g_n3 g -> length out = g_nphi g ->
  exists r, get_row_ph g ix it v out = Ok r /\ length r = g_nphi g /\
    forall ip, ip < g_nphi g -> nth_error r ip = nth_error v (indx_R_th_ph g ix it ip).
Proof.
  intros Ht Hp Hv Ho. unfold get_row_ph, indx_R_th_ph. ok_asserts. apply get_spec; auto.
  intros i Hi. rewrite Hv. apply ix_R_th_ph_lt; auto.
Qed.

(** whole spheres *)
Theorem C03_row_th_ph g ix row v :
  ix < g_nx g -> length row = g_nlat g * g_nphi g -> length v = g_n3 g ->
  exists v', set_row_th_ph g ix row v = Ok v' /\ length v' = length v /\
    (forall it ip, it < g_nlat g -> ip < g_nphi g ->
       nth_error v' (indx_R_th_ph g ix it ip) = nth_error row (indx_th_ph g it ip)) /\
    (forall jx jt jp, jt < g_nlat g -> jp < g_nphi g -> jx <> ix ->
       nth_error v' (indx_R_th_ph g jx jt jp) = nth_error v (indx_R_th_ph g jx jt jp)) /\
    (forall out, length out = g_nlat g * g_nphi g -> get_row_th_ph g ix v' out = Ok row).
Proof.
  intros Hx Hr Hv. unfold set_row_th_ph, get_row_th_ph, indx_R_th_ph, indx_th_ph in *. ok_asserts.
  destruct (set_get2 (g_nlat g) (g_nphi g) (ix_th_ph (g_bld g) (g_nlat g) (g_nphi g))
     (fun it ip => ix_R_th_ph (g_bld g) (g_nlat g) (g_nphi g) ix it ip) row v)
    as (v' & E & L & H1 & H2 & H3); auto.
  { intros; now apply ix_th_ph_lt. }
  { intros; eapply ix_th_ph_inj; eauto. }
  { intros; now apply ix_th_ph_surj. }
  { intros. rewrite Hv. apply ix_R_th_ph_lt; auto. }
  { intros i j i' j' ? ? ? ? E. apply ix_R_th_ph_inj in E; auto; tauto. }
  exists v'. split; [exact E|]. repeat split; auto.
  - intros jx jt jp Ht' Hp' Hne. apply H2. intros i j Hi Hj E'. apply ix_R_th_ph_inj in E'; auto.
    destruct E' as (-> & _). congruence.
  - intros out Ho. ok_asserts. now apply H3.
Qed.
Theorem C03_get_row_th_ph g ix v out :
  ix < g_nx g -> length v = g_n3 g -> length out = g_nlat g * g_nphi g ->
  exists r, get_row_th_ph g ix v out = Ok r /\ length r = g_nlat g * g_nphi g /\
    forall it ip, it < g_nlat g -> ip < g_nphi g ->
      nth_error r (indx_th_ph g it ip) = nth_error v (indx_R_th_ph g ix it ip).
Proof.
  intros Hx Hv Ho. unfold get_row_th_ph, indx_R_th_ph, indx_th_ph in *. ok_asserts.
  apply get2_spec; auto.
  { intros; now apply ix_th_ph_lt. }
  { intros; eapply ix_th_ph_inj; eauto. }
  { intros. rewrite Hv. apply ix_R_th_ph_lt; auto. }
Qed.

(** (R,theta) planes *)
Theorem C03_row_R_th g ip row v :
  ip < g_nphi g -> length row = g_nx g * g_nlat g -> length v = g_n3 g ->
  exists v', set_row_R_th g ip row v = Ok v' /\ length v' = length v /\
    (forall ix it, ix < g_nx g -> it < g_nlat g ->
       nth_error v' (indx_R_th_ph g ix it ip) = nth_error row (indx_r_th g ix it)) /\
    (forall jx jt jp, jt < g_nlat g -> jp < g_nphi g -> jp <> ip ->
       nth_error v' (indx_R_th_ph g jx jt jp) = nth_error v (indx_R_th_ph g jx jt jp)) /\
    (forall out, length out = g_nx g * g_nlat g -> get_row_R_th g ip v' out = Ok row).
Proof.
  intros Hx Hr Hv. unfold set_row_R_th, get_row_R_th, indx_R_th_ph, indx_r_th in *. ok_asserts.
  destruct (C02_planes_bijective (g_bld g) (g_nx g) (g_nlat g)) as (B1 & B2 & B3 & _).
  destruct (set_get2 (g_nx g) (g_nlat g) (ix_r_th (g_nlat g))
     (fun ix it => ix_R_th_ph (g_bld g) (g_nlat g) (g_nphi g) ix it ip) row v)
    as (v' & E & L & H1 & H2 & H3); [exact Hr| | | | | |].
  { intros; now apply B1. }
  { intros i j i' j' _ ? _ ? ?; eapply B2; eauto. }
  { intros k Hk. destruct (B3 k Hk) as (i & j & ? & ? & ? & _). eauto. }
  { intros. rewrite Hv. apply ix_R_th_ph_lt; auto. }
  { intros i j i' j' ? ? ? ? E. apply ix_R_th_ph_inj in E; auto; tauto. }
  exists v'. split; [exact E|]. repeat split; auto.
  - intros jx jt jp Ht' Hp' Hne. apply H2. intros i j Hi Hj E'. apply ix_R_th_ph_inj in E'; auto.
    destruct E' as (_ & _ & ->). congruence.
  - intros out Ho. ok_asserts. now apply H3.
Qed.

(** (R,phi) planes: the setter (see C05 for the getter) *)
Theorem C03_set_row_R_ph g it row v :
  it < g_nlat g -> length row = g_nx g * g_nphi g -> length v = g_n3 g ->
  exists v', set_row_R_ph g it row v = Ok v' /\ length v' = length v /\
    (forall ix ip, ix < g_nx g -> ip < g_nphi g ->
       nth_error v' (indx_R_th_ph g ix it ip) = nth_error row (indx_r_ph g ix ip)) /\
    (forall jx jt jp, jt < g_nlat g -> jp < g_nphi g -> jt <> it ->
       nth_error v' (indx_R_th_ph g jx jt jp) = nth_error v (indx_R_th_ph g jx jt jp)).
Proof.
  intros Hx Hr Hv. unfold set_row_R_ph, indx_R_th_ph, indx_r_ph in *. ok_asserts.
  destruct (C02_planes_bijective (g_bld g) (g_nx g) (g_nphi g)) as (B1 & B2 & B3 & _).
  destruct (set_get2 (g_nx g) (g_nphi g) (ix_r_ph (g_nphi g))
     (fun ix ip => ix_R_th_ph (g_bld g) (g_nlat g) (g_nphi g) ix it ip) row v)
    as (v' & E & L & H1 & H2 & H3); [exact Hr| | | | | |].
  { intros; now apply B1. }
  { intros i j i' j' _ ? _ ? ?; eapply B2; eauto. }
  { intros k Hk. destruct (B3 k Hk) as (i & j & ? & ? & _ & ? & _). eauto. }
  { intros. rewrite Hv. apply ix_R_th_ph_lt; auto. }
  { intros i j i' j' ? ? ? ? E. apply ix_R_th_ph_inj in E; auto; tauto. }
  exists v'. split; [exact E|]. repeat split; auto.
  intros jx jt jp Ht' Hp' Hne. apply H2. intros i j Hi Hj E'. apply ix_R_th_ph_inj in E'; auto.
  destruct E' as (_ & -> & _). congruence.
Qed.

(** coefficient columns (fixed l) and l-rows (fixed radius) *)
Theorem C03_row_n g il row v :
  il < g_nl g -> length row = g_nx g -> length v = g_nx g * g_nl g ->
  exists v', set_row_n g il row v = Ok v' /\ length v' = length v /\
    (forall ix, ix < g_nx g -> nth_error v' (indx_r_l g ix il) = nth_error row ix) /\
    (forall jx jl, jl < g_nl g -> jl <> il -> nth_error v' (indx_r_l g jx jl) = nth_error v (indx_r_l g jx jl)) /\
    (forall out, length out = g_nx g -> get_row_n g il v' out = Ok row).
Proof.
  intros Hl Hr Hv. unfold set_row_n, get_row_n, indx_r_l in *. ok_asserts.
  destruct (set_get (g_nx g) (fun ix => ix_r_l (g_nl g) ix il) row v)
    as (v' & E & L & H1 & H2 & H3); auto.
  { intros i Hi. rewrite Hv. unfold ix_r_l. nia. }
  { intros i j _ _ E. unfold ix_r_l in E. apply mul_add_inj in E; auto; tauto. }
  exists v'. split; [exact E|]. repeat split; auto.
  - intros jx jl Hl' Hne. apply H2. intros i Hi E'. unfold ix_r_l in E'. apply mul_add_inj in E'; auto. lia.
  - intros out Ho. ok_asserts. now apply H3.
Qed.
Theorem C03_set_row_l g ix row v :
  ix < g_nx g -> length row = g_nl g -> length v = g_nx g * g_nl g ->
  exists v', set_row_l g ix row v = Ok v' /\ length v' = length v /\
    (forall il, il < g_nl g -> nth_error v' (indx_r_l g ix il) = nth_error row il) /\
    (forall jx jl, jl < g_nl g -> jx <> ix -> nth_error v' (indx_r_l g jx jl) = nth_error v (indx_r_l g jx jl)).
Proof.
  intros Hx Hr Hv. unfold set_row_l, indx_r_l in *. ok_asserts.
  destruct (set_get (g_nl g) (fun il => ix_r_l (g_nl g) ix il) row v)
    as (v' & E & L & H1 & H2 & H3); auto.
  { intros i Hi. rewrite Hv. unfold ix_r_l. nia. }
  { intros i j ? ? E. unfold ix_r_l in E. apply mul_add_inj in E; auto; tauto. }
  exists v'. split; [exact E|]. repeat split; auto.
  intros jx jl Hl' Hne. apply H2. intros i Hi E'. unfold ix_r_l in E'. apply mul_add_inj in E'; auto. lia.
Qed.

(** ** C04 *)
Theorem C04_set_row_ph_square g ix it row v :
  ix < g_nx g -> it < g_nlat g -> g_nlat g <= g_nphi g ->
  length row = g_nphi g -> length v = g_n3 g ->
  exists v', set_row_ph g ix it row v = Ok v' /\ length v' = length v /\
    (forall ip, ip < g_nlat g -> nth_error v' (indx_R_th_ph g ix it ip) = nth_error row ip) /\
    (forall ip, g_nlat g <= ip -> ip < g_nphi g ->
       nth_error v' (indx_R_th_ph g ix it ip) = nth_error v (indx_R_th_ph g ix it ip)) /\
    (forall jx jt jp, jt < g_nlat g -> jp < g_nphi g -> (jx, jt) <> (ix, it) ->
       nth_error v' (indx_R_th_ph g jx jt jp) = nth_error v (indx_R_th_ph g jx jt jp)).
Proof.
  intros Hx Ht Hle Hr Hv. unfold set_row_ph, indx_R_th_ph in *. ok_asserts.
  destruct (gather_spec (g_nlat g) (fun ip => ix_R_th_ph (g_bld g) (g_nlat g) (g_nphi g) ix it ip) (fun ip => ip) row v)
    as (v' & E & L & H1 & H2).
  { intros; lia. }
  { intros i Hi. rewrite Hv. apply ix_R_th_ph_lt; auto; lia. }
  { intros i j ? ? E. apply ix_R_th_ph_inj in E; auto; lia. }
  exists v'. split; [exact E|]. repeat split; auto.
  - intros ip H3 H4. apply H2. intros i Hi E'. apply ix_R_th_ph_inj in E'; auto; lia.
  - intros jx jt jp Ht' Hp' Hne. apply H2. intros i Hi E'. apply ix_R_th_ph_inj in E'; auto; try lia.
    destruct E' as (-> & -> & _). congruence.
Qed.
Theorem C04_set_row_ph_reads_past_end g ix it row v :
  ix < g_nx g -> it < g_nlat g -> g_nphi g < g_nlat g ->
  length row = g_nphi g -> length v = g_n3 g -> set_row_ph g ix it row v = UB.
Proof.
  intros Hx Ht Hlt Hr Hv. unfold set_row_ph, indx_R_th_ph. ok_asserts.
  apply (gather_ub _ _ _ _ _ (g_nphi g)); auto; try lia.
  intros i Hi. rewrite Hv. apply ix_R_th_ph_lt; auto.
Qed.
(** the natural claim "set_row_ph stores the whole phi line" holds exactly for nlat = nphi *)
Theorem C04_set_row_ph_correct_iff g ix it :
  ix < g_nx g -> it < g_nlat g -> (exists x y : F, x <> y) ->
  (forall row v, length row = g_nphi g -> length v = g_n3 g ->
     exists v', set_row_ph g ix it row v = Ok v' /\
       forall ip, ip < g_nphi g -> nth_error v' (indx_R_th_ph g ix it ip) = nth_error row ip)
  <-> g_nlat g = g_nphi g.
Proof.
  intros Hx Ht (x & y & Hxy). split.
  - intros H. destruct (lt_eq_lt_dec (g_nlat g) (g_nphi g)) as [[Hl|He]|Hg]; auto; exfalso.
    + destruct (H (vec (g_nphi g) x) (vec (g_n3 g) y)) as (v' & E & Hv); try apply vec_length.
      destruct (C04_set_row_ph_square g ix it (vec (g_nphi g) x) (vec (g_n3 g) y)) as (v2 & E2 & _ & _ & H2 & _);
        try apply vec_length; auto; try lia.
      assert (v2 = v') by congruence. subst v2.
      specialize (Hv (g_nlat g) Hl). rewrite (H2 (g_nlat g)) in Hv by lia.
      rewrite !nth_error_vec in Hv; auto. congruence.
      unfold indx_R_th_ph, g_n3. apply ix_R_th_ph_lt; auto.
    + destruct (H (vec (g_nphi g) x) (vec (g_n3 g) y)) as (v' & E & Hv); try apply vec_length.
      rewrite C04_set_row_ph_reads_past_end in E; auto using vec_length. discriminate.
  - intros He row v Hr Hv.
    destruct (C04_set_row_ph_square g ix it row v) as (v' & E & _ & H1 & _); auto; try lia.
    exists v'. split; auto. intros ip Hip. apply H1. lia.
Qed.

(** ** C05 *)
Theorem C05_get_row_R_ph_release g it v out :
  ndebug (g_bld g) = true -> it < g_nlat g -> length v = g_n3 g -> length out = g_nx g * g_nphi g ->
  exists r, get_row_R_ph g it v out = Ok r /\ length r = g_nx g * g_nphi g /\
    forall ix ip, ix < g_nx g -> ip < g_nphi g ->
      nth_error r (indx_r_ph g ix ip) = nth_error v (indx_R_th_ph g ix it ip).
Proof.
  intros Hnd Ht Hv Ho. unfold get_row_R_ph. rewrite !assert_ndebug by auto. cbn [bind].
  unfold indx_R_th_ph, indx_r_ph.
  destruct (C02_planes_bijective (g_bld g) (g_nx g) (g_nphi g)) as (B1 & B2 & _).
  apply get2_spec; [exact Ho| | |].
  { intros; now apply B1. }
  { intros i j i' j' _ ? _ ? ?; eapply B2; eauto. }
  { intros. rewrite Hv. apply ix_R_th_ph_lt; auto. }
Qed.
Theorem C05_get_row_R_ph_debug_aborts g it v out :
  ndebug (g_bld g) = false -> 0 < g_nx g -> g_nlat g <> g_nphi g ->
  length v = g_n3 g -> length out = g_nx g * g_nphi g -> get_row_R_ph g it v out = Abort.
Proof.
  intros Hnd Hx Hne Hv Ho. unfold get_row_R_ph. ok_asserts.
  assert (E : Nat.eqb (length out) (g_nx g * g_nlat g) = false).
  { apply Nat.eqb_neq. rewrite Ho. intros E. apply Nat.mul_cancel_l in E; lia. }
  rewrite E, assert_fail by auto. reflexivity.
Qed.
(** a buffer of the size the assertion asks for overflows when nlat < nphi *)
Theorem C05_get_row_R_ph_asserted_size_overflows g it v out :
  0 < g_nx g -> it < g_nlat g -> g_nlat g < g_nphi g ->
  length v = g_n3 g -> length out = g_nx g * g_nlat g -> get_row_R_ph g it v out = UB.
Proof.
  intros Hx Ht Hlt Hv Ho. unfold get_row_R_ph. ok_asserts. unfold gather2.
  (* either an earlier iteration already overflowed or the last one does *)
  assert (G : forall k, k <= g_nx g -> forall o, length o = g_nx g * g_nlat g ->
     for_ 0 k (fun i out => for_ 0 (g_nphi g) (fun j out =>
        bind (vget v (indx_R_th_ph g i it j)) (fun x => vset out (indx_r_ph g i j) x)) out) o = UB \/
     exists o', for_ 0 k (fun i out => for_ 0 (g_nphi g) (fun j out =>
        bind (vget v (indx_R_th_ph g i it j)) (fun x => vset out (indx_r_ph g i j) x)) out) o = Ok o' /\
        length o' = g_nx g * g_nlat g /\ (0 < k -> g_nphi g * k <= g_nx g * g_nlat g)).
  { induction k as [|k IH]; intros Hk o Hl.
    - right. exists o. rewrite for_nil by lia. split; auto. split; auto; lia.
    - rewrite for_last by lia. destruct (IH ltac:(lia) o Hl) as [E|(o' & E & Hl' & Hb)].
      + left. rewrite E. reflexivity.
      + rewrite E. cbn [bind].
        destruct (le_lt_dec (g_nphi g * S k) (g_nx g * g_nlat g)) as [Hle|Hgt].
        * right.
          destruct (gather_spec (g_nphi g) (fun j => indx_r_ph g k j) (fun j => indx_R_th_ph g k it j) v o')
            as (o2 & E2 & L2 & _).
          { intros j Hj. rewrite Hv. unfold indx_R_th_ph, g_n3. apply ix_R_th_ph_lt; auto; lia. }
          { intros j Hj. rewrite Hl'. unfold indx_r_ph, ix_r_ph. nia. }
          { unfold indx_r_ph, ix_r_ph. intros; lia. }
          unfold gather in E2. rewrite E2. exists o2. split; auto. split; [congruence|auto].
        * left.
          assert (Hlast : g_nx g * g_nlat g <= indx_r_ph g k (g_nphi g - 1)).
          { unfold indx_r_ph, ix_r_ph. nia. }
          (* first offending column *)
          assert (Hex : exists q, q < g_nphi g /\ (forall j, j < q -> indx_r_ph g k j < g_nx g * g_nlat g) /\
                        g_nx g * g_nlat g <= indx_r_ph g k q).
          { unfold indx_r_ph, ix_r_ph in *. exists (g_nx g * g_nlat g - g_nphi g * k).
            assert (g_nphi g * k <= g_nx g * g_nlat g) by (destruct k; [lia|apply Hb; lia]).
            repeat split; try lia; nia. }
          destruct Hex as (q & Hq & Hqs & Hqe).
          apply (gather_ub (g_nphi g) (fun j => indx_r_ph g k j) (fun j => indx_R_th_ph g k it j) v o' q); auto.
          { intros j Hj. rewrite Hv. unfold indx_R_th_ph, g_n3. apply ix_R_th_ph_lt; auto; lia. }
          { intros j Hj. rewrite Hl'. auto. }
          { right. lia. } }
  destruct (G (g_nx g) (le_n _) out Ho) as [E|(o' & E & _ & Hb)]; auto.
  exfalso. specialize (Hb Hx). nia.
Qed.
End C03.
