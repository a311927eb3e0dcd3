(** The slice-by-slice operators of Grid, in any arithmetic. *)
From Verif Require Import Base BaseLemmas ForList Arith MFd MCheb MSphere MGrid GridSpec PGrid PropGrid PTables PMake PFd PCheb PChebG.

(** a loop whose iterations own disjoint views of the state *)
Lemma for_list_views {I S X} (is : list I) (body : I -> S -> res S) (Inv : S -> Prop)
    (view : I -> S -> X) (out : I -> X) s0 :
  NoDup is -> Inv s0 ->
  (forall i s, In i is -> Inv s -> view i s = view i s0 ->
     exists s', body i s = Ok s' /\ Inv s' /\ view i s' = out i /\
       forall j, In j is -> j <> i -> view j s' = view j s) ->
  exists s', for_list is body s0 = Ok s' /\ Inv s' /\ forall i, In i is -> view i s' = out i.
Proof.
  intros ND H0 Hs.
  destruct (for_list_total (fun pre s => Inv s /\ (forall i, In i pre -> view i s = out i) /\
      forall i, In i is -> ~ In i pre -> view i s = view i s0) is body s0) as (s' & E & HI & Ho & _).
  - split; auto. split; [intros i []|]. auto.
  - intros pre i post s Hd (HI & Hdone & Htodo).
    assert (Hi : In i is) by (rewrite Hd; apply in_or_app; right; left; auto).
    pose proof (nodup_split is pre post i ND Hd) as Hni.
    destruct (Hs i s Hi HI (Htodo i Hi Hni)) as (s' & E & HI' & Hv & Hf).
    exists s'. split; auto. split; auto. split.
    + intros j Hj. apply in_app_iff in Hj. destruct Hj as [Hj|[->|[]]]; auto.
      rewrite Hf; [auto| |congruence]. rewrite Hd. apply in_or_app. auto.
    + intros j Hj Hnj. rewrite in_app_iff in Hnj. rewrite Hf; auto. 
      intros ->. apply Hnj. right. left. auto.
  - exists s'. auto.
Qed.

Lemma nth_error_nil {A} i : nth_error (@nil A) i = None.
Proof. now destruct i. Qed.
Section Op.
Context {F : Type} {AF : Arith F}.
Variable g : grid F.
Local Notation N := (g_nlat g * g_nphi g).

Lemma n3_eq : g_n3 g = N * g_nx g.
Proof. unfold g_n3. lia. Qed.
Lemma shell_length v ix : length v = g_n3 g -> ix < g_nx g -> length (shell g v ix) = N.
Proof.
  intros Hv Hx. unfold shell. rewrite firstn_length, skipn_length, Hv, n3_eq.
  assert (N * ix + N <= N * g_nx g). { rewrite <- Nat.mul_succ_r. apply Nat.mul_le_mono_l. lia. } lia.
Qed.
Lemma nth_error_shell v ix k : k < N -> nth_error (shell g v ix) k = nth_error v (N * ix + k).
Proof.
  intros Hk. unfold shell. generalize (N * ix) as o. intros o. generalize N Hk. clear Hk. intros n Hk.
  revert v k n Hk. induction o as [|o IH]; intros v k n Hk.
  - simpl. revert k n Hk. induction v as [|x v IH]; intros k n Hk; [now rewrite firstn_nil, nth_error_nil|].
    destruct n; [lia|]. destruct k; simpl; auto. apply IH. lia.
  - destruct v; simpl; [now rewrite firstn_nil, !nth_error_nil|]. now apply IH.
Qed.
Lemma nth_shell v ix k d : k < N -> nth k (shell g v ix) d = nth (N * ix + k) v d.
Proof.
  intros Hk. pose proof (nth_error_shell v ix k Hk) as E.
  destruct (nth_error v (N * ix + k)) eqn:E2.
  - rewrite (nth_error_nth _ _ _ E), (nth_error_nth _ _ _ E2). auto.
  - apply nth_error_None in E, E2. now rewrite !nth_overflow.
Qed.
Lemma nth_error_shell_pt v ix it ip : it < g_nlat g -> ip < g_nphi g ->
  nth_error (shell g v ix) (indx_th_ph g it ip) = nth_error v (indx_R_th_ph g ix it ip).
Proof.
  intros Ht Hp. unfold indx_R_th_ph, indx_th_ph. rewrite nth_error_shell by now apply ix_th_ph_lt.
  now rewrite ix_R_th_ph_eq.
Qed.
Lemma shells_ext v w : length v = g_n3 g -> length w = g_n3 g ->
  (forall ix, ix < g_nx g -> shell g v ix = shell g w ix) -> v = w.
Proof.
  intros Hv Hw H. apply nth_error_ext. intros i. destruct (lt_dec i (g_n3 g)) as [Hi|Hi].
  - rewrite n3_eq in Hi. destruct (mul_add_surj _ _ _ Hi) as (a & c & Ha & Hc & ->).
    rewrite <- !nth_error_shell by auto. now rewrite H.
  - rewrite !(proj2 (nth_error_None _ _)) by lia. auto.
Qed.
Lemma rline_length v it ip : length (rline g v it ip) = g_nx g.
Proof. unfold rline. now rewrite map_length, seq_length. Qed.
Lemma nth_error_rline v it ip ix : length v = g_n3 g -> it < g_nlat g -> ip < g_nphi g -> ix < g_nx g ->
  nth_error (rline g v it ip) ix = nth_error v (indx_R_th_ph g ix it ip).
Proof.
  intros Hv Ht Hp Hx. unfold rline. rewrite nth_error_map_seq by auto.
  symmetry. apply nth_error_nth'. rewrite Hv. now apply ix_R_th_ph_lt.
Qed.
Lemma nth_rline v it ip ix d : ix < g_nx g -> nth ix (rline g v it ip) d = nth (indx_R_th_ph g ix it ip) v f0.
Proof. intros Hx. unfold rline. now rewrite nth_map_seq. Qed.
Lemma rline_ext v w : length v = g_n3 g -> length w = g_n3 g ->
  (forall it ip, it < g_nlat g -> ip < g_nphi g -> rline g v it ip = rline g w it ip) -> v = w.
Proof.
  intros Hv Hw H. apply nth_error_ext. intros i. destruct (lt_dec i (g_n3 g)) as [Hi|Hi].
  - destruct (ix_R_th_ph_surj (g_bld g) _ _ _ _ Hi) as (ix & it & ip & Hx & Ht & Hp & <-).
    change (ix_R_th_ph _ _ _ ix it ip) with (indx_R_th_ph g ix it ip).
    rewrite <- !nth_error_rline by auto. now rewrite H.
  - rewrite !(proj2 (nth_error_None _ _)) by lia. auto.
Qed.

(** *** get and set rows in these terms *)
Lemma get_shell ix v out : ix < g_nx g -> length v = g_n3 g -> length out = N ->
  get_row_th_ph g ix v out = Ok (shell g v ix).
Proof.
  intros Hx Hv Ho. destruct (C03_get_row_th_ph g ix v out Hx Hv Ho) as (r & E & L & H). rewrite E. f_equal.
  apply nth_error_ext. intros k. destruct (lt_dec k N) as [Hk|Hk].
  - destruct (ix_th_ph_surj (g_bld g) _ _ _ Hk) as (it & ip & Ht & Hp & <-).
    change (ix_th_ph _ _ _ it ip) with (indx_th_ph g it ip). now rewrite H, nth_error_shell_pt.
  - rewrite !(proj2 (nth_error_None _ _)); auto; [rewrite shell_length by auto|]; lia.
Qed.
Lemma set_shell ix row v : ix < g_nx g -> length row = N -> length v = g_n3 g ->
  exists v', set_row_th_ph g ix row v = Ok v' /\ length v' = g_n3 g /\ shell g v' ix = row /\
    forall jx, jx < g_nx g -> jx <> ix -> shell g v' jx = shell g v jx.
Proof.
  intros Hx Hr Hv. destruct (C03_row_th_ph g ix row v Hx Hr Hv) as (v' & E & L & H1 & H2 & _).
  exists v'. split; auto. split; [congruence|]. split.
  - apply nth_error_ext. intros k. destruct (lt_dec k N) as [Hk|Hk].
    + destruct (ix_th_ph_surj (g_bld g) _ _ _ Hk) as (it & ip & Ht & Hp & <-).
      change (ix_th_ph _ _ _ it ip) with (indx_th_ph g it ip). now rewrite nth_error_shell_pt, H1.
    + rewrite !(proj2 (nth_error_None _ _)); auto; [|rewrite shell_length by congruence]; lia.
  - intros jx Hj Hne. apply nth_error_ext. intros k. destruct (lt_dec k N) as [Hk|Hk].
    + destruct (ix_th_ph_surj (g_bld g) _ _ _ Hk) as (it & ip & Ht & Hp & <-).
      change (ix_th_ph _ _ _ it ip) with (indx_th_ph g it ip). now rewrite !nth_error_shell_pt, H2.
    + rewrite !(proj2 (nth_error_None _ _)); auto; rewrite shell_length by congruence; lia.
Qed.
Lemma get_line it ip v out : it < g_nlat g -> ip < g_nphi g -> length v = g_n3 g -> length out = g_nx g ->
  get_row_R g it ip v out = Ok (rline g v it ip).
Proof.
  intros Ht Hp Hv Ho. destruct (C03_get_row_R g it ip v out Ht Hp Hv Ho) as (r & E & L & H). rewrite E. f_equal.
  apply nth_error_ext. intros k. destruct (lt_dec k (g_nx g)) as [Hk|Hk].
  - now rewrite H, nth_error_rline.
  - rewrite !(proj2 (nth_error_None _ _)); auto; [rewrite rline_length|]; lia.
Qed.
Lemma set_line it ip row v : it < g_nlat g -> ip < g_nphi g -> length row = g_nx g -> length v = g_n3 g ->
  exists v', set_row_R g it ip row v = Ok v' /\ length v' = g_n3 g /\ rline g v' it ip = row /\
    forall jt jp, jt < g_nlat g -> jp < g_nphi g -> (jt, jp) <> (it, ip) -> rline g v' jt jp = rline g v jt jp.
Proof.
  intros Ht Hp Hr Hv. destruct (C03_row_R g it ip row v Ht Hp Hr Hv) as (v' & E & L & H1 & H2 & _).
  exists v'. split; auto. split; [congruence|]. split.
  - apply nth_error_ext. intros k. destruct (lt_dec k (g_nx g)) as [Hk|Hk].
    + rewrite nth_error_rline by (auto; congruence). now apply H1.
    + rewrite !(proj2 (nth_error_None _ _)); auto; [|rewrite rline_length]; lia.
  - intros jt jp Hjt Hjp Hne. apply nth_error_ext. intros k. destruct (lt_dec k (g_nx g)) as [Hk|Hk].
    + rewrite !nth_error_rline by (auto; congruence). now apply H2.
    + rewrite !(proj2 (nth_error_None _ _)); auto; rewrite rline_length; lia.
Qed.

(** *** operators on shells *)
Lemma sph0_length : length (sph0 g) = N.
Proof. unfold sph0. now rewrite vec_length. Qed.
Lemma rad0_length : length (rad0 g) = g_nx g.
Proof. unfold rad0. now rewrite vec_length. Qed.

Lemma shell_op_ok op v dv (out : nat -> list F) :
  length v = g_n3 g -> length dv = g_n3 g ->
  (forall ix, ix < g_nx g -> op (shell g v ix) (sph0 g) = Ok (out ix) /\ length (out ix) = N) ->
  exists r, shell_op g op v dv = Ok r /\ length r = g_n3 g /\ forall ix, ix < g_nx g -> shell g r ix = out ix.
Proof.
  intros Hv Hd Hop. unfold shell_op. ok_asserts. rewrite for_as_list, Nat.sub_0_r.
  destruct (for_list_views (seq 0 (g_nx g)) (shell_body g op v) (fun s => length s = g_n3 g)
     (fun ix s => shell g s ix) out dv) as (r & E & L & H); auto.
  - apply seq_NoDup.
  - intros ix s Hi Hs _. apply in_seq in Hi. unfold shell_body.
    rewrite get_shell by (auto using sph0_length; lia). cbn [bind].
    destruct (Hop ix) as (E & Lo); [lia|]. rewrite E. cbn [bind].
    destruct (set_shell ix (out ix) s) as (s' & E' & L' & H1 & H2); auto; [lia|].
    exists s'. repeat split; auto. intros j Hj Hne. apply in_seq in Hj. apply H2; auto. lia.
  - exists r. split; auto. split; auto. intros ix Hx. apply H. apply in_seq. lia.
Qed.

(** *** operators on radial lines *)
Lemma line_op_ok op v dv (out : nat -> nat -> list F) :
  length v = g_n3 g -> length dv = g_n3 g ->
  (forall it ip, it < g_nlat g -> ip < g_nphi g -> op (rline g v it ip) = Ok (out it ip) /\ length (out it ip) = g_nx g) ->
  exists r, line_op g op v dv = Ok r /\ length r = g_n3 g /\
    forall it ip, it < g_nlat g -> ip < g_nphi g -> rline g r it ip = out it ip.
Proof.
  intros Hv Hd Hop. unfold line_op. ok_asserts. rewrite for2_as_list.
  destruct (for_list_views (list_prod (seq 0 (g_nlat g)) (seq 0 (g_nphi g)))
     (fun p => line_body g op v (fst p) (snd p)) (fun s => length s = g_n3 g)
     (fun p s => rline g s (fst p) (snd p)) (fun p => out (fst p) (snd p)) dv) as (r & E & L & H); auto.
  - apply NoDup_list_prod; apply seq_NoDup.
  - intros [it ip] s Hi Hs _. apply In_pts2 in Hi. cbn [fst snd] in *. destruct Hi as (Ht & Hp). unfold line_body.
    rewrite get_line by (auto using rad0_length). cbn [bind].
    destruct (Hop it ip Ht Hp) as (E & Lo). rewrite E. cbn [bind].
    destruct (set_line it ip (out it ip) s) as (s' & E' & L' & H1 & H2); auto.
    exists s'. repeat split; auto. intros [jt jp] Hj Hne. apply In_pts2 in Hj. cbn [fst snd] in *. now apply H2.
  - exists r. split; auto. split; auto. intros it ip Ht Hp. apply (H (it, ip)). now apply In_pts2.
Qed.

(** *** the in-place filter *)
Lemma filter_lines_id v : length v = g_n3 g -> 1 <= g_nx g ->
  for_ 0 (g_nlat g) (fun it v => for_ 0 (g_nphi g) (fun ip v => filter_line g it ip v) v) v = Ok v.
Proof.
  intros Hv Hx. rewrite for2_as_list.
  destruct (for_list_views (list_prod (seq 0 (g_nlat g)) (seq 0 (g_nphi g)))
     (fun p => filter_line g (fst p) (snd p)) (fun s => length s = g_n3 g)
     (fun p s => rline g s (fst p) (snd p)) (fun p => rline g v (fst p) (snd p)) v) as (r & E & L & H); auto.
  - apply NoDup_list_prod; apply seq_NoDup.
  - intros [it ip] s Hi Hs Hview. apply In_pts2 in Hi. cbn [fst snd] in *. destruct Hi as (Ht & Hp). unfold filter_line.
    rewrite get_line by (auto using rad0_length). cbn [bind]. rewrite Hview.
    pose proof (rline_length v it ip) as Lr. rewrite !wsub_le by lia.
    rewrite !(vget_ok (rline g v it ip) _ f0) by lia. cbn [bind].
    destruct (set_line it ip (rline g v it ip) s) as (s' & E' & L' & H1 & H2); auto.
    rewrite E'. cbn [bind]. rewrite vset_ok by lia. cbn [bind]. rewrite vset_ok by (rewrite upd_length; lia). cbn [bind].
    exists s'. repeat split; auto. intros [jt jp] Hj Hne. apply In_pts2 in Hj. cbn [fst snd] in *. now apply H2.
  - rewrite E. f_equal. apply rline_ext; auto. intros it ip Ht Hp. apply (H (it, ip)). now apply In_pts2.
Qed.
Lemma grid_filter_ok v (out : nat -> list F) : length v = g_n3 g -> 1 <= g_nx g ->
  (forall ix, ix < g_nx g -> sp_filter (g_bld g) (g_sphere g) (shell g v ix) = Ok (out ix) /\ length (out ix) = N) ->
  exists r, grid_filter g v = Ok r /\ length r = g_n3 g /\ forall ix, ix < g_nx g -> shell g r ix = out ix.
Proof.
  intros Hv Hx Hop. unfold grid_filter. ok_asserts.
  rewrite (for_as_list 0 (g_nx g)), Nat.sub_0_r.
  destruct (for_list_views (seq 0 (g_nx g)) (filter_shell g) (fun s => length s = g_n3 g)
     (fun ix s => shell g s ix) out v) as (r & E & L & H); auto.
  - apply seq_NoDup.
  - intros ix s Hi Hs Hview. apply in_seq in Hi. unfold filter_shell.
    rewrite get_shell by (auto using sph0_length; lia). cbn [bind]. rewrite Hview.
    destruct (Hop ix) as (E & Lo); [lia|]. rewrite E. cbn [bind].
    destruct (set_shell ix (out ix) s) as (s' & E' & L' & H1 & H2); auto; [lia|].
    exists s'. repeat split; auto. intros j Hj Hne. apply in_seq in Hj. apply H2; auto. lia.
  - exists r. rewrite E. cbn [bind]. rewrite filter_lines_id by auto. split; auto. split; auto.
    intros ix Hix. apply H. apply in_seq. lia.
Qed.

(** *** radial derivatives of one line *)
Definition rad_big (k : nat) : Prop :=
  rad_n (g_radial g) = g_nx g /\
  match g_radial g with RFd _ => k <= g_nx g | RCh c => 2 <= g_nx g /\ ch_plan c = true end.
Lemma rad_der_total w : rad_big 7 -> length w = g_nx g ->
  exists out, length out = g_nx g /\ forall dv, length dv = g_nx g -> rad_der (g_bld g) (g_radial g) w dv = Ok out.
Proof.
  intros (Hn & Hr) Hw. unfold rad_der. destruct (g_radial g) as [r|c]; cbn [rad_n] in *.
  - eexists. split; [|intros dv Hd; apply fd_der_ok; lia]. rewrite map_length, seq_length. auto.
  - destruct Hr as [H2 Hp]. rewrite <- Hn in *. now apply cheb_der_total.
Qed.

Lemma line_R_total w : rad_big 7 -> length w = g_nx g -> exists out, line_R g w = Ok out /\ length out = g_nx g.
Proof.
  intros Hr Hw. destruct (rad_der_total w Hr Hw) as (o & L & H). exists o. unfold line_R. split; auto. apply H, rad0_length.
Qed.
Lemma line_r_total w : rad_big 7 -> length w = g_nx g -> length (g_dR g) = g_nx g ->
  exists d out, line_R g w = Ok d /\ line_r g w = Ok out /\ length d = g_nx g /\ length out = g_nx g /\
    forall i, i < g_nx g -> nth i out f0 = (nth i d f0 * nth i (g_dR g) f0)%f.
Proof.
  intros Hr Hw HdR. destruct (rad_der_total w Hr Hw) as (o & L & H). exists o.
  unfold line_R, line_r. rewrite H by apply rad0_length. cbn [bind].
  destruct (for_modify (g_nx g) 0 (g_nx g) (fun ix dv => let! x := dv.[ix] in let! a := (g_dR g).[ix] in dv.[ix <- (x * a)%f])
     (fun i x => (x * nth i (g_dR g) f0)%f) o) as (out & E & Lo & Ho); auto.
  - intros i s x Hi Hs Hx. unfold vget at 1. rewrite Hx. cbn [bind]. rewrite (vget_ok (g_dR g) _ f0) by lia. cbn [bind].
    now rewrite vset_ok by lia.
  - exists out. repeat split; auto. intros i Hi. apply nth_error_nth. rewrite Ho.
    destruct (Nat.leb_spec 0 i), (Nat.ltb_spec i (g_nx g)); try lia. cbn [andb].
    rewrite (nth_error_nth' o f0) by lia. reflexivity.
Qed.
Lemma line_r2_total w : rad_big 8 -> length w = g_nx g -> length (g_dR g) = g_nx g -> length (g_d2R g) = g_nx g ->
  exists d dd out, line_R g w = Ok d /\ length d = g_nx g /\ length dd = g_nx g /\
    (match g_radial g with RCh c => line_R g d = Ok dd | RFd r => fd_der2 (g_bld g) r w (rad0 g) = Ok dd end) /\
    line_r2 g w = Ok out /\ length out = g_nx g /\
    forall i, i < g_nx g -> nth i out f0 = (nth i (g_d2R g) f0 * nth i d f0 + (nth i (g_dR g) f0 ^^ 2) * nth i dd f0)%f.
Proof.
  intros Hr Hw HdR Hd2.
  assert (Hr7 : rad_big 7). { destruct Hr as [A B]. split; auto. destruct (g_radial g); auto. lia. }
  destruct (rad_der_total w Hr7 Hw) as (d & L & H). exists d.
  assert (HD : exists dd, length dd = g_nx g /\
    match g_radial g with RCh c => line_R g d = Ok dd | RFd r => fd_der2 (g_bld g) r w (rad0 g) = Ok dd end /\
    (match g_radial g with RCh c => cheb_der (g_bld g) c d (rad0 g) | RFd r => fd_der2 (g_bld g) r w (rad0 g) end) = Ok dd).
  { destruct (rad_der_total d Hr7 L) as (dd & L2 & H2). unfold line_R, rad_der in *. destruct Hr as [A B].
    destruct (g_radial g) as [r|c].
    - cbn [rad_n] in A. eexists. split; [|split; apply fd_der2_ok; rewrite ?rad0_length; lia]. now rewrite map_length, seq_length.
    - exists dd. split; auto. split; apply H2, rad0_length. }
  destruct HD as (dd & Ldd & HD1 & HD2). exists dd.
  unfold line_r2. unfold line_R at 1. rewrite H by apply rad0_length. cbn [bind]. rewrite HD2. cbn [bind].
  destruct (for_modify (g_nx g) 0 (g_nx g) (fun ix ddv =>
    let! d2 := (g_d2R g).[ix] in let! x := d.[ix] in let! d1 := (g_dR g).[ix] in let! y := ddv.[ix] in
    ddv.[ix <- (d2 * x + (d1 ^^ 2) * y)%f])
     (fun i x => (nth i (g_d2R g) f0 * nth i d f0 + (nth i (g_dR g) f0 ^^ 2) * x)%f) dd) as (out & E & Lo & Ho); auto.
  - intros i s x Hi Hs Hx. rewrite (vget_ok (g_d2R g) _ f0), (vget_ok d _ f0), (vget_ok (g_dR g) _ f0) by lia. cbn [bind].
    unfold vget. rewrite Hx. cbn [bind]. now rewrite vset_ok by lia.
  - exists out. repeat split; auto. intros i Hi. apply nth_error_nth. rewrite Ho.
    destruct (Nat.leb_spec 0 i), (Nat.ltb_spec i (g_nx g)); try lia. cbn [andb].
    rewrite (nth_error_nth' dd f0) by lia. reflexivity.
Qed.
End Op.
