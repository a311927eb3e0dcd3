(** * The OpenMP loops of grid.cpp, field.cpp and scalar_eom.cpp as threads (see Conc.v).
    The index arithmetic, the order of the accesses and the local computations are those of the
    sequential model MGrid/MField/MEom.  Simplification: asserts on the (immutable) sizes are not
    repeated inside the threads.  The transforms act on thread-local vectors; that concurrent calls
    into SHTns/FFTW with distinct arrays are independent is part of their documented contract. *)
From Verif Require Import Base BaseLemmas ForList Arith MFd MCheb MSphere MGrid MField MEom PGrid Conc.
From Coq Require Import Permutation.

Section Threads.
Context {F : Type} {AF : Arith F}.
Local Notation prog := (prog F).
Local Notation mem := (mem F).

(** local computation; any failure stops the thread *)
Definition lift {A} (r : res A) (k : A -> prog) : prog := match r with Ok a => k a | _ => Err end.
(** a C++ for loop inside a thread *)
Fixpoint p_loop {S} (count i : nat) (body : nat -> S -> (S -> prog) -> prog) (s : S) (k : S -> prog) : prog :=
  match count with O => k s | Datatypes.S c => body i s (fun s' => p_loop c (Datatypes.S i) body s' k) end.
Definition p_for {S} (lo hi : nat) (body : nat -> S -> (S -> prog) -> prog) (s : S) (k : S -> prog) : prog :=
  p_loop (hi - lo) lo body s k.
(** out[dst i] = a[src i]: shared array a, local vector out *)
Definition p_gather (n : nat) (dst src : nat -> nat) (a : nat) (out : list F) (k : list F -> prog) : prog :=
  p_for 0 n (fun i out k => Rd (a, src i) (fun x => lift (out.[dst i <- x]) k)) out k.
Definition p_gather2 (n m : nat) (dst src : nat -> nat -> nat) (a : nat) (out : list F) (k : list F -> prog) : prog :=
  p_for 0 n (fun i out k => p_for 0 m (fun j out k => Rd (a, src i j) (fun x => lift (out.[dst i j <- x]) k)) out k) out k.
(** a[dst i] = inp[src i]: local vector inp, shared array a *)
Definition p_scatter (n : nat) (dst src : nat -> nat) (inp : list F) (a : nat) (k : prog) : prog :=
  p_for 0 n (fun i _ k => lift (inp.[src i]) (fun x => Wr (a, dst i) x (k tt))) tt (fun _ => k).
Definition p_scatter2 (n m : nat) (dst src : nat -> nat -> nat) (inp : list F) (a : nat) (k : prog) : prog :=
  p_for 0 n (fun i _ k => p_for 0 m (fun j _ k => lift (inp.[src i j]) (fun x => Wr (a, dst i j) x (k tt))) tt k) tt (fun _ => k).

(** *** grid.cpp:108-118, 126-136, 144-154, 284-289: the iteration ix of the loops over shells.
    [a] is the array read, [c] the array written (the same one in Grid::filter). *)
Definition p_shell (g : grid F) (op : list F -> res (list F)) (a c ix : nat) : prog :=
  p_gather2 (g_nlat g) (g_nphi g) (fun it ip => indx_th_ph g it ip) (fun it ip => indx_R_th_ph g ix it ip) a (sph0 g)
    (fun inter => lift (op inter) (fun r =>
  p_scatter2 (g_nlat g) (g_nphi g) (fun it ip => indx_R_th_ph g ix it ip) (fun it ip => indx_th_ph g it ip) r c Ret)).
(** *** grid.cpp:162-174, 182-198, 206-232, 291-303: the iteration it of the loops over radial lines *)
Definition p_line (g : grid F) (op : list F -> res (list F)) (a c it : nat) : prog :=
  p_for 0 (g_nphi g) (fun ip _ k =>
    p_gather (g_nx g) (fun ix => ix) (fun ix => indx_R_th_ph g ix it ip) a (rad0 g) (fun inter =>
    lift (op inter) (fun r =>
    p_scatter (g_nx g) (fun ix => indx_R_th_ph g ix it ip) (fun ix => ix) r c (k tt)))) tt (fun _ => Ret).
(** *** grid.cpp:237-247 *)
Definition p_spec (g : grid F) (a c ix : nat) : prog :=
  p_gather2 (g_nlat g) (g_nphi g) (fun it ip => indx_th_ph g it ip) (fun it ip => indx_R_th_ph g ix it ip) a (sph0 g)
    (fun inter => lift (power_spectrum (g_bld g) (g_sphere g) inter (vec (g_nl g) f0)) (fun r =>
  p_scatter (g_nl g) (fun il => indx_r_l g ix il) (fun il => il) r c Ret)).
(** *** grid.cpp:258-275 *)
Definition p_nl (g : grid F) (c il : nat) : prog :=
  p_gather (g_nx g) (fun ix => ix) (fun ix => indx_r_l g ix il) c (rad0 g) (fun v =>
  lift (for_ 0 (g_nx g) (fun ix v => let! x := v.[ix] in v.[ix <- fpowh x]) v) (fun v =>
  lift (match g_radial g with RCh c => to_ch (g_bld g) c v (rad0 g) | RFd _ => UB end) (fun q =>
  p_scatter (g_nx g) (fun ix => indx_r_l g ix il) (fun ix => ix) q c Ret))).
(** *** one assignment of the pointwise loops *)
Definition p_copy (a c i : nat) (k : prog) : prog := Rd (a, i) (fun x => Wr (c, i) x k).              (* c[i] = a[i] *)
Definition p_axpy (a b c : nat) (s : F) (i : nat) (k : prog) : prog :=                                 (* c[i] = a[i] + s*b[i] *)
  Rd (a, i) (fun x => Rd (b, i) (fun y => Wr (c, i) (x + s * y)%f k)).
(** field.cpp:27-30 on arrays n = 0, np1 = 1 *)
Definition p_shift (i : nat) : prog := p_copy 1 0 i Ret.
(** scalar_eom.cpp:224-266 on arrays f.n f.l f.np1 f.k p.n p.l p.np1 p.k = 0..7 *)
Definition p_level (dt : F) (level : Z) (i : nat) : prog :=
  let half := fdec 5 (-1) in
  if (level =? 1)%Z then p_copy 0 1 i (p_copy 4 5 i Ret)
  else if (level =? 2)%Z then
    p_axpy 0 3 1 (half * dt)%f i (p_axpy 4 7 5 (half * dt)%f i (p_axpy 0 3 2 (dt / #6)%f i (p_axpy 4 7 6 (dt / #6)%f i Ret)))
  else if (level =? 3)%Z then
    p_axpy 0 3 1 (half * dt)%f i (p_axpy 4 7 5 (half * dt)%f i (p_axpy 2 3 2 (dt / #3)%f i (p_axpy 6 7 6 (dt / #3)%f i Ret)))
  else if (level =? 4)%Z then
    p_axpy 0 3 1 dt i (p_axpy 4 7 5 dt i (p_axpy 2 3 2 (dt / #3)%f i (p_axpy 6 7 6 (dt / #3)%f i Ret)))
  else if (level =? 5)%Z then
    p_axpy 2 3 2 (dt / #6)%f i (p_axpy 6 7 6 (dt / #6)%f i Ret)
  else Ret.

(** ** Running a thread alone is the sequential model *)
Lemma lift_run {A} (r : res A) x k m : r = Ok x -> run (lift r k) m = run (k x) m.
Proof. intros ->. reflexivity. Qed.
Lemma run_for_read {S} lo hi (body : nat -> S -> (S -> prog) -> prog) fb s s' k (m : mem) :
  (forall i s s' k, fb i s = Ok s' -> run (body i s k) m = run (k s') m) ->
  for_ lo hi fb s = Ok s' -> run (p_for lo hi body s k) m = run (k s') m.
Proof.
  intros H. unfold for_, p_for. generalize (hi - lo) as c. intros c. revert lo s. induction c as [|c IH]; intros lo s E; cbn in *.
  - now injection E as ->.
  - inv_bind E. rewrite (H _ _ x) by auto. now apply IH.
Qed.
Lemma upd_same {A} (v : list A) i x : nth_error v i = Some x -> upd v i x = v.
Proof. revert i; induction v as [|a v IH]; intros [|i] H; cbn in *; try discriminate; [congruence|]. now rewrite IH. Qed.
(** loop that updates array c; [Inv] describes the other arrays *)
Lemma run_for_write (c lo hi : nat) (body : nat -> unit -> (unit -> prog) -> prog) (fb : nat -> list F -> res (list F)) (Inv : mem -> Prop) k :
  (forall m v, Inv m -> Inv (upd m c v)) ->
  (forall i m out out' k, Inv m -> nth_error m c = Some out -> fb i out = Ok out' -> run (body i tt k) m = run (k tt) (upd m c out')) ->
  forall m out out', Inv m -> nth_error m c = Some out -> for_ lo hi fb out = Ok out' ->
  run (p_for lo hi body tt k) m = run (k tt) (upd m c out').
Proof.
  intros HI H. unfold for_, p_for. generalize (hi - lo) as n. intros n. revert lo. induction n as [|n IH]; intros lo m out out' I Hc E; cbn in *.
  - injection E as ->. now rewrite upd_same.
  - inv_bind E. rewrite (H _ _ out x) by auto.
    rewrite (IH (Datatypes.S lo) (upd m c x) x out'); auto.
    + now rewrite upd_upd_eq.
    + apply nth_error_upd_eq. apply nth_error_Some. congruence.
Qed.

Lemma vget_rd (m : mem) a v i x : nth_error m a = Some v -> v.[i] = Ok x -> rd m (a, i) = Some x.
Proof. intros E H. unfold rd. cbn. rewrite E. unfold vget in H. destruct (nth_error v i); congruence. Qed.
Lemma vset_wt (m : mem) a v i x v' : nth_error m a = Some v -> v.[i <- x] = Ok v' -> rd m (a, i) <> None /\ wt m (a, i) x = upd m a v'.
Proof.
  intros E H. unfold vset in H. destruct (Nat.ltb_spec i (length v)); [|discriminate]. injection H as <-.
  unfold rd, wt. cbn. rewrite E. split; auto. now apply nth_error_Some.
Qed.
Lemma run_wr (m : mem) a v i x v' k : nth_error m a = Some v -> v.[i <- x] = Ok v' -> run (Wr (a, i) x k) m = run k (upd m a v').
Proof. intros E H. destruct (vset_wt _ _ _ _ _ _ E H) as [A B]. cbn. destruct (rd m (a, i)); [|congruence]. now rewrite B. Qed.
Lemma run_rd (m : mem) a v i x k : nth_error m a = Some v -> v.[i] = Ok x -> run (Rd (a, i) k) m = run (k x) m.
Proof. intros E H. cbn. now rewrite (vget_rd _ _ _ _ _ E H). Qed.

Lemma run_gather n dst src a (m : mem) v out out' k : nth_error m a = Some v ->
  gather n dst src v out = Ok out' -> run (p_gather n dst src a out k) m = run (k out') m.
Proof.
  intros Ha H. unfold p_gather. eapply run_for_read; [|exact H]. intros i s s' k' E. cbv beta in E. inv_bind E.
  rewrite (run_rd _ _ v _ x) by auto. now rewrite (lift_run _ s').
Qed.
Lemma run_gather2 n m' dst src a (m : mem) v out out' k : nth_error m a = Some v ->
  gather2 n m' dst src v out = Ok out' -> run (p_gather2 n m' dst src a out k) m = run (k out') m.
Proof.
  intros Ha H. unfold p_gather2. eapply run_for_read; [|exact H]. intros i s s' k' E.
  eapply run_for_read; [|exact E]. intros j t t' k'' E'. cbv beta in E'. inv_bind E'.
  rewrite (run_rd _ _ v _ x) by auto. now rewrite (lift_run _ t').
Qed.
Lemma run_scatter n dst src inp a (m : mem) out out' k : nth_error m a = Some out ->
  gather n dst src inp out = Ok out' -> run (p_scatter n dst src inp a k) m = run k (upd m a out').
Proof.
  intros Ha H. unfold p_scatter.
  rewrite (run_for_write a 0 n _ (fun i out => let! x := inp.[src i] in out.[dst i <- x]) (fun _ => True) (fun _ => k)) with (out := out) (out' := out'); auto.
  intros i m0 o o' k' _ Ho E. cbv beta in E. inv_bind E. rewrite (lift_run _ x) by auto. eapply run_wr; eauto.
Qed.
Lemma run_scatter2 n m' dst src inp a (m : mem) out out' k : nth_error m a = Some out ->
  gather2 n m' dst src inp out = Ok out' -> run (p_scatter2 n m' dst src inp a k) m = run k (upd m a out').
Proof.
  intros Ha H. unfold p_scatter2.
  rewrite (run_for_write a 0 n _ (fun i out => for_ 0 m' (fun j out => let! x := inp.[src i j] in out.[dst i j <- x]) out) (fun _ => True) (fun _ => k)) with (out := out) (out' := out'); auto.
  intros i m0 o o' k' _ Ho E.
  rewrite (run_for_write a 0 m' _ (fun j out => let! x := inp.[src i j] in out.[dst i j <- x]) (fun _ => True) k') with (out := o) (out' := o'); auto.
  intros j m1 o1 o1' k1 _ Ho1 E1. cbv beta in E1. inv_bind E1. rewrite (lift_run _ x) by auto. eapply run_wr; eauto.
Qed.

Ltac drop_asserts H := repeat (let u := fresh "u" in let E := fresh "E" in
  match type of H with bind (assert_ _ _) _ = Ok _ => inv_bind H end).

Lemma run_shell g op a c (m : mem) v dv dv' ix : nth_error m a = Some v -> nth_error m c = Some dv ->
  (let! inter := get_row_th_ph g ix v (sph0 g) in let! r := op inter in set_row_th_ph g ix r dv) = Ok dv' ->
  run (p_shell g op a c ix) m = Some (upd m c dv').
Proof.
  intros Ha Hc H. inv_bind H. inv_bind H. unfold get_row_th_ph in E. drop_asserts E. unfold set_row_th_ph in H. drop_asserts H.
  unfold p_shell. erewrite run_gather2 by eauto. erewrite lift_run by eauto. erewrite run_scatter2 by eauto. reflexivity.
Qed.
Lemma run_line g op a c (m : mem) v dv dv' it : a <> c -> nth_error m a = Some v -> nth_error m c = Some dv ->
  for_ 0 (g_nphi g) (fun ip dv => line_body g op v it ip dv) dv = Ok dv' ->
  run (p_line g op a c it) m = Some (upd m c dv').
Proof.
  intros Hne Ha Hc H. unfold p_line.
  rewrite (run_for_write c 0 (g_nphi g) _ (fun ip dv => line_body g op v it ip dv) (fun m => nth_error m a = Some v)) with (out := dv) (out' := dv'); auto.
  - intros m0 w Hw. now rewrite nth_error_upd_neq by auto.
  - intros ip m0 o o' k Hm Ho E. unfold line_body in E. cbv beta in E. inv_bind E. inv_bind E. unfold get_row_R in E0. drop_asserts E0.
    unfold set_row_R in E. drop_asserts E.
    erewrite run_gather by eauto. erewrite lift_run by eauto. erewrite run_scatter by eauto. reflexivity.
Qed.
(** Grid::filter's radial pass: the line is read and written back *)
Definition keep (g : grid F) (inter : list F) : res (list F) :=
  let! lwr := inter.[0%nat] in let! upr := inter.[wsub (g_nx g) 1] in Ok inter.
Lemma run_filter_line g c (m : mem) v v' it : nth_error m c = Some v ->
  for_ 0 (g_nphi g) (fun ip v => filter_line g it ip v) v = Ok v' ->
  run (p_line g (keep g) c c it) m = Some (upd m c v').
Proof.
  intros Hc H. unfold p_line.
  rewrite (run_for_write c 0 (g_nphi g) _ (fun ip v => filter_line g it ip v) (fun _ => True)) with (out := v) (out' := v'); auto.
  intros ip m0 o o' k _ Ho E. unfold filter_line in E. cbv beta in E. inv_bind E. inv_bind E. cbv beta in E. inv_bind E. inv_bind E. cbv beta in E. inv_bind E. inv_bind E. injection E as <-.
  unfold get_row_R in E0. drop_asserts E0. unfold set_row_R in E3. drop_asserts E3.
  erewrite run_gather by eauto. erewrite (lift_run _ x) by (unfold keep; rewrite E1; cbn [bind]; rewrite E2; reflexivity).
  erewrite run_scatter by eauto. reflexivity.
Qed.
Lemma run_spec g a c (m : mem) v p p' ix : nth_error m a = Some v -> nth_error m c = Some p ->
  spectrum_body g v ix p = Ok p' -> run (p_spec g a c ix) m = Some (upd m c p').
Proof.
  intros Ha Hc H. unfold spectrum_body in H. inv_bind H. inv_bind H. unfold get_row_th_ph in E. drop_asserts E.
  unfold set_row_l in H. drop_asserts H.
  unfold p_spec. erewrite run_gather2 by eauto. erewrite lift_run by eauto. erewrite run_scatter by eauto. reflexivity.
Qed.
Lemma run_nl g c (m : mem) p p' il : nth_error m c = Some p -> nl_body g il p = Ok p' -> run (p_nl g c il) m = Some (upd m c p').
Proof.
  intros Hc H. unfold nl_body in H. inv_bind H. inv_bind H. inv_bind H. unfold get_row_n in E. drop_asserts E.
  unfold set_row_n in H. drop_asserts H.
  unfold p_nl. erewrite run_gather by eauto. erewrite lift_run by eauto. erewrite lift_run by eauto. erewrite run_scatter by eauto. reflexivity.
Qed.

(** sequences of iterations *)
Lemma frun_for {n} (body : nat -> prog) (fb : nat -> list F -> res (list F)) c (Inv : mem -> Prop) :
  (forall m v, Inv m -> Inv (upd m c v)) ->
  (forall i m out out', Inv m -> nth_error m c = Some out -> fb i out = Ok out' -> run (body i) m = Some (upd m c out')) ->
  forall m out out', Inv m -> nth_error m c = Some out -> for_ 0 n fb out = Ok out' ->
  frun (map body (seq 0 n)) m = Some (upd m c out').
Proof.
  intros HI H. unfold for_. rewrite Nat.sub_0_r. generalize 0 as lo. induction n as [|n IH]; intros lo m out out' I Hc E; cbn in *.
  - injection E as ->. now rewrite upd_same.
  - inv_bind E. rewrite (H _ _ out x) by auto.
    rewrite (IH (Datatypes.S lo) (upd m c x) x out'); auto.
    + now rewrite upd_upd_eq.
    + apply nth_error_upd_eq. apply nth_error_Some. congruence.
Qed.

(** ** Footprints *)
Lemma fp_lift {A} (R W : cell -> Prop) (r : res A) k : (forall x, r = Ok x -> fp R W (k x)) -> fp R W (lift r k).
Proof. destruct r; cbn; auto. Qed.
Lemma fp_for {S} (R W : cell -> Prop) lo hi (body : nat -> S -> (S -> prog) -> prog) s k :
  (forall i s k, lo <= i < hi -> (forall s', fp R W (k s')) -> fp R W (body i s k)) ->
  (forall s, fp R W (k s)) -> fp R W (p_for lo hi body s k).
Proof.
  intros H Hk. unfold p_for.
  assert (G : forall c i s, lo <= i -> i + c <= hi \/ c = 0 -> fp R W (p_loop c i body s k)).
  { induction c as [|c IH]; intros i s0 H1 H2; cbn; auto. apply H; [lia|]. intros s'. apply IH; lia. }
  apply G; lia.
Qed.
Lemma fp_gather (R W : cell -> Prop) n dst src a out k : (forall i, i < n -> R (a, src i) \/ W (a, src i)) -> (forall o, fp R W (k o)) -> fp R W (p_gather n dst src a out k).
Proof.
  intros H Hk. apply fp_for; auto. intros i s k' Hi Hk'. cbn. split; [apply H; lia|]. intros x. apply fp_lift. auto.
Qed.
Lemma fp_gather2 (R W : cell -> Prop) n m dst src a out k : (forall i j, i < n -> j < m -> R (a, src i j) \/ W (a, src i j)) -> (forall o, fp R W (k o)) ->
  fp R W (p_gather2 n m dst src a out k).
Proof.
  intros H Hk. apply fp_for; auto. intros i s k' Hi Hk'. apply fp_for; auto. intros j t k'' Hj Hk''.
  cbn. split; [apply H; lia|]. intros x. apply fp_lift. auto.
Qed.
Lemma fp_scatter (R W : cell -> Prop) n dst src inp a k : (forall i, i < n -> W (a, dst i)) -> fp R W k -> fp R W (p_scatter n dst src inp a k).
Proof.
  intros H Hk. apply fp_for; auto. intros i s k' Hi Hk'. apply fp_lift. intros x _. cbn. split; auto. apply H; lia.
Qed.
Lemma fp_scatter2 (R W : cell -> Prop) n m dst src inp a k : (forall i j, i < n -> j < m -> W (a, dst i j)) -> fp R W k -> fp R W (p_scatter2 n m dst src inp a k).
Proof.
  intros H Hk. apply fp_for; auto. intros i s k' Hi Hk'. apply fp_for; auto. intros j t k'' Hj Hk''.
  apply fp_lift. intros x _. cbn. split; auto. apply H; lia.
Qed.

(** cells of array a on shell ix / on the lines of latitude index it / in row ix, column il of an nx*nl table *)
Definition on_shell (g : grid F) (a ix : nat) (c : cell) : Prop :=
  exists it ip, it < g_nlat g /\ ip < g_nphi g /\ c = (a, indx_R_th_ph g ix it ip).
Definition on_lines (g : grid F) (a it : nat) (c : cell) : Prop :=
  exists ix ip, ip < g_nphi g /\ c = (a, indx_R_th_ph g ix it ip).
Definition in_row (g : grid F) (a ix : nat) (c : cell) : Prop := exists il, il < g_nl g /\ c = (a, indx_r_l g ix il).
Definition in_col (g : grid F) (a il : nat) (c : cell) : Prop := exists ix, c = (a, indx_r_l g ix il).

Lemma fp_shell g op a c ix : fp (on_shell g a ix) (on_shell g c ix) (p_shell g op a c ix).
Proof.
  unfold p_shell. apply fp_gather2; [intros it ip Ht Hp; left; unfold on_shell; eauto|]. intros o. apply fp_lift. intros r _.
  apply fp_scatter2; [|exact I]. intros it ip Ht Hp. unfold on_shell. eauto.
Qed.
Lemma fp_line g op a c it : fp (on_lines g a it) (on_lines g c it) (p_line g op a c it).
Proof.
  unfold p_line. apply fp_for; [|intros; exact I]. intros ip s k Hip Hk.
  apply fp_gather; [intros ix Hx; left; exists ix, ip; split; auto; lia|]. intros o. apply fp_lift. intros r _.
  apply fp_scatter; auto. intros ix Hx. exists ix, ip; split; auto; lia.
Qed.
Lemma fp_spec g a c ix : fp (on_shell g a ix) (in_row g c ix) (p_spec g a c ix).
Proof.
  unfold p_spec. apply fp_gather2; [intros it ip Ht Hp; left; unfold on_shell; eauto|]. intros o. apply fp_lift. intros r _.
  apply fp_scatter; [|exact I]. intros il Hl. exists il. auto.
Qed.
Lemma fp_nl g c il : fp (in_col g c il) (in_col g c il) (p_nl g c il).
Proof.
  unfold p_nl. apply fp_gather; [intros ix Hx; left; exists ix; auto|]. intros o. apply fp_lift. intros r _. apply fp_lift. intros q _.
  apply fp_scatter; [|exact I]. intros ix Hx. exists ix; auto.
Qed.

(** different iterations are apart *)
Lemma apart_shell g a c i j : i <> j -> apart (on_shell g a i) (on_shell g c i) (on_shell g a j) (on_shell g c j).
Proof.
  intros Hij x. split; intros (it & ip & Ht & Hp & E); split; intros (it' & ip' & Ht' & Hp' & E');
    rewrite E in E'; apply (f_equal snd) in E'; cbn [snd] in E'; apply ix_R_th_ph_inj in E'; auto; lia.
Qed.
Lemma apart_lines g a c i j : i < g_nlat g -> j < g_nlat g -> i <> j -> apart (on_lines g a i) (on_lines g c i) (on_lines g a j) (on_lines g c j).
Proof.
  intros Hi Hj Hij x. split; intros (it & ip & Hp & E); split; intros (it' & ip' & Hp' & E');
    rewrite E in E'; apply (f_equal snd) in E'; cbn [snd] in E'; apply ix_R_th_ph_inj in E'; auto; lia.
Qed.
Lemma apart_spec g a c i j : a <> c -> i <> j -> apart (on_shell g a i) (in_row g c i) (on_shell g a j) (in_row g c j).
Proof.
  intros Hac Hij x. split; intros (il & Hl & E); (split; [intros (it & ip & _ & _ & E'); rewrite E in E'; apply (f_equal fst) in E'; cbn [fst] in E'; congruence|
    intros (il' & Hl' & E'); rewrite E in E'; apply (f_equal snd) in E'; cbn [snd] in E'; apply mul_add_inj in E'; auto; lia]).
Qed.
Lemma apart_col g c i j : i < g_nl g -> j < g_nl g -> i <> j -> apart (in_col g c i) (in_col g c i) (in_col g c j) (in_col g c j).
Proof.
  intros Hi Hj Hij x. split; intros (ix & E); split; intros (ix' & E');
    rewrite E in E'; apply (f_equal snd) in E'; cbn [snd] in E'; apply mul_add_inj in E'; auto; lia.
Qed.
Lemma apart_arrays (A B C D : list nat) (R1 W1 R2 W2 : cell -> Prop) :
  (forall c, R1 c -> In (fst c) A) -> (forall c, W1 c -> In (fst c) B) -> (forall c, R2 c -> In (fst c) C) -> (forall c, W2 c -> In (fst c) D) ->
  (forall x, In x B -> ~ In x C /\ ~ In x D) -> (forall x, In x D -> ~ In x A) -> apart R1 W1 R2 W2.
Proof.
  intros H1 H2 H3 H4 H5 H6 c. split.
  - intros H. destruct (H5 (fst c)) as [X Y]; auto.
  - intros H. split; intros H'; [apply (H6 (fst c)); auto|]. destruct (H5 (fst c)) as [X Y]; auto.
Qed.
End Threads.
