(** No function of the program other than the parameter reader ends the process or throws. *)
From Coq Require Import Ascii String.
From Verif Require Import Base Arith MFd MCheb MSphere MGrid MParams MField MEom MInit MIo MMain.

Definition plain {A} (r : res A) : Prop := match r with Ok _ | UB | Abort => True | Throw | Exit _ => False end.
Lemma plain_bind {A B} (m : res A) (k : A -> res B) : plain m -> (forall a, plain (k a)) -> plain (bind m k).
Proof. destruct m; cbn; auto. Qed.
Lemma plain_loop {S} n : forall i (body : nat -> S -> res S) s, (forall i s, plain (body i s)) -> plain (loop n i body s).
Proof. induction n; intros; cbn [loop]; [exact I|]. apply plain_bind; auto. Qed.
Lemma plain_for {S} lo hi (body : nat -> S -> res S) s : (forall i s, plain (body i s)) -> plain (for_ lo hi body s).
Proof. intros. unfold for_. now apply plain_loop. Qed.
Lemma plain_loop_down {S} n : forall i (body : nat -> S -> res S) s, (forall i s, plain (body i s)) -> plain (loop_down n i body s).
Proof. induction n; intros; cbn [loop_down]; [exact I|]. apply plain_bind; auto. Qed.
Lemma plain_for_down {S} hi lo (body : nat -> S -> res S) s : (forall i s, plain (body i s)) -> plain (for_down hi lo body s).
Proof. intros. unfold for_down. now apply plain_loop_down. Qed.
Lemma plain_get {A} (v : list A) i : plain (vget v i).
Proof. unfold vget. destruct (nth_error v i); exact I. Qed.
Lemma plain_set {A} (v : list A) i x : plain (vset v i x).
Proof. unfold vset. destruct (_ <? _); exact I. Qed.
Lemma plain_assert b c : plain (assert_ b c).
Proof. unfold assert_. destruct (ndebug b), c; exact I. Qed.

Ltac head t := match t with ?f _ => head f | _ => t end.
Ltac pl := cbv beta zeta; first [exact I | apply plain_get | apply plain_set | apply plain_assert | solve [auto with plain] |
  lazymatch goal with
  | |- plain (bind _ _) => apply plain_bind; [pl|intros; pl]
  | |- plain (for_ _ _ _ _) => apply plain_for; intros; pl
  | |- plain (for_down _ _ _ _) => apply plain_for_down; intros; pl
  | |- plain (match ?x with _ => _ end) => destruct x; pl
  | |- plain ?t => let h := head t in unfold h; pl
  | |- forall _, _ => intros; pl
  end].

Section Plain.
Context {F : Type} {AF : Arith F}.
Lemma plain_reduce (step : nat -> F -> res F) sched init : (forall i a, plain (step i a)) -> plain (reduce step sched init).
Proof.
  intros H. assert (T : forall l, plain (thread_sum step l)).
  { intros l. unfold thread_sum. assert (G : forall l r, plain r -> plain (fold_left (fun acc i => let! a := acc in step i a) l r)).
    { induction l0; intros r Hr; cbn [fold_left]; auto. apply IHl0. apply plain_bind; auto. }
    apply G. exact I. }
  unfold reduce. assert (G : forall l r, plain r -> plain (fold_left (fun acc its => let! a := acc in let! s := thread_sum step its in Ok (fadd a s)) l r)).
  { induction l; intros r Hr; cbn [fold_left]; auto. apply IHl. apply plain_bind; auto. intros a0. apply plain_bind; auto. intros; exact I. }
  apply G. exact I.
Qed.
Lemma plain_nir g sch dt (a c p : list F) : plain (norm_indep_res g sch dt a c p).
Proof. unfold norm_indep_res. repeat (apply plain_bind; [|intros]); try apply plain_assert; try exact I. apply plain_reduce. intros. unfold nir_step. pl. Qed.
Lemma plain_tv g sch (v : list F) : plain (total_variation g sch v).
Proof. unfold total_variation. repeat (apply plain_bind; [|intros]); try apply plain_assert; try exact I. apply plain_reduce. intros. unfold tv_step. pl. Qed.
Lemma plain_Cheb_make b n (lo up : F) : plain (Cheb_make b n lo up). Proof. pl. Qed.
Lemma plain_Grid_make b h (cl Rmin Rmax : F) nx nl nm nlat nphi : plain (Grid_make b h cl Rmin Rmax nx nl nm nlat nphi).
Proof. pl. Qed.
Lemma plain_Eom_make (g : grid F) par : plain (Eom_make g par). Proof. pl. Qed.
Lemma plain_pulse par (g : grid F) f p : plain (compact_pulse par g f p). Proof. pl. Qed.
Lemma plain_partial_r (g : grid F) v w : plain (set_partial_r g v w). Proof. pl. Qed.
Lemma plain_partial2_r (g : grid F) v w : plain (set_partial2_r g v w). Proof. pl. Qed.
Lemma plain_partial_phi (g : grid F) v w : plain (set_partial_phi g v w). Proof. pl. Qed.
Lemma plain_sphereX (g : grid F) v w : plain (set_sphereX g v w). Proof. pl. Qed.
Lemma plain_lap (g : grid F) v w : plain (set_spherical_lap g v w). Proof. pl. Qed.
Lemma plain_gfilter (g : grid F) v : plain (grid_filter g v). Proof. pl. Qed.
#[local] Hint Resolve plain_partial_r plain_partial2_r plain_partial_phi plain_sphereX plain_lap plain_gfilter plain_nir plain_tv plain_pulse plain_Eom_make plain_Grid_make : plain.
Lemma plain_set_k (g : grid F) e f p fk pk : plain (set_k g e f p fk pk). Proof. pl. Qed.
#[local] Hint Resolve plain_set_k : plain.
Lemma plain_level n dt l (f : field F) : plain (level1 n dt l f). Proof. pl. Qed.
#[local] Hint Resolve plain_level : plain.
Lemma plain_step (g : grid F) e f p : plain (time_step g e f p). Proof. pl. Qed.
Lemma plain_rho (g : grid F) e f p r : plain (set_rho g e f p r). Proof. pl. Qed.
Lemma plain_write (fmt : F -> text) fs g name t i v : plain (write_R_psl fmt fs g name t i v). Proof. pl. Qed.
Lemma plain_shift (f : field F) : plain (shift f). Proof. pl. Qed.
#[local] Hint Resolve plain_step plain_rho plain_write plain_shift : plain.
Lemma plain_save (fmt : F -> text) g dir t r tv k st : plain (save_state fmt g dir t r tv k st). Proof. pl. Qed.
#[local] Hint Resolve plain_save : plain.
Lemma plain_iter (fmt : F -> text) s1 s2 g par dir i st : plain (main_iter fmt s1 s2 g par dir i st). Proof. pl. Qed.

(** the driver ends the process early, or lets an exception escape, only while reading the parameters *)
Lemma main_plain fmt stod_ s1 s2 b h file dir fs :
  match Params_make stod_ b file with
  | Ok _ => plain (main (F := F) fmt stod_ s1 s2 b h file dir fs)
  | Exit c => main fmt stod_ s1 s2 b h file dir fs = Exit c
  | Throw => main fmt stod_ s1 s2 b h file dir fs = Throw
  | UB => False
  | Abort => main fmt stod_ s1 s2 b h file dir fs = Abort
  end.
Proof.
  unfold main, main_init. destruct (Params_make stod_ b file) as [par| | | |] eqn:E; cbn [bind]; auto.
  - apply plain_bind; [pl|]. intros [[? ?] ?]. apply plain_for. intros. apply plain_iter.
  - revert E. unfold Params_make. cbv zeta beta. 
    assert (U1 : forall k, p_read b file k <> UB). { intros k. unfold p_read. destruct file; [|destruct (ndebug b); discriminate]. induction (lines t) as [|l ls IH]; cbn [read_lines]; [discriminate|]. destruct (cut sp_char l). destruct (text_eqb _ _); [discriminate|auto]. }
    assert (U2 : forall s, stoi s <> UB). { intros s. unfold stoi. destruct (signed_digits _); [|discriminate]. destruct (_ && _)%bool; discriminate. }
    assert (U3 : forall s, stod stod_ s <> UB). { intros s. unfold stod. destruct (stod_ s); discriminate. }
    assert (U4 : forall k, (let! s := p_read b file k in stoi s) <> UB). { intros k. destruct (p_read b file k) eqn:X; cbn [bind]; auto; try discriminate. exfalso; eapply U1; eauto. }
    assert (U5 : forall k, (let! s := p_read b file k in stod stod_ s) <> UB). { intros k. destruct (p_read b file k) eqn:X; cbn [bind]; auto; try discriminate. exfalso; eapply U1; eauto. }
    assert (UBI : forall A B (m : res A) (k : A -> res B), m <> UB -> (forall a, k a <> UB) -> bind m k <> UB) by (intros A B [] k H1 H2; cbn [bind]; auto; discriminate).
    repeat (apply UBI; [first [apply U4 | apply U5 | apply U1]|intros ?]). discriminate.
Qed.
End Plain.
