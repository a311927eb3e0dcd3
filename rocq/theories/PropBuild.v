(** * C100: what the executables that the Makefiles, config.py and then_recompile produce are made of *)
From Coq Require Import List Bool String Ascii Arith Lia.
From Verif Require Import Base MParams MBuild.
Import ListNotations.
Local Open Scope nat_scope.

(** ** Specification: the options of the invocations of make since the last clean, latest first *)
Definition options (evs : list event) : list macros :=
  fold_left (fun acc e => match e with Make v _ _ => macros_of v :: acc | MakeTest _ => Mac true true false :: acc | CleanSource => [] | _ => acc end) evs [].

(** ** The invariant of every history *)
Lemma text_eqb_true : forall a b, text_eqb a b = true -> a = b.
Proof. intros a b. unfold text_eqb. destruct (list_eq_dec _ _ _); [auto|discriminate]. Qed.
Lemma text_eqb_refl' : forall a, text_eqb a a = true.
Proof. intros a. unfold text_eqb. destruct (list_eq_dec _ _ _); [auto|congruence]. Qed.

Lemma includes_headers f g : In g (includes f) -> In g headers.
Proof.
  unfold includes. destruct (find _ include_lines) as [[k l]|] eqn:E; [|contradiction].
  apply find_some in E. destruct E as [E _]. intros G.
  assert (A : forallb (fun x => forallb (fun g => existsb (text_eqb g) headers) (snd x)) include_lines = true) by (vm_compute; reflexivity).
  rewrite forallb_forall in A. specialize (A _ E). cbn [snd] in A. rewrite forallb_forall in A. specialize (A g G).
  apply existsb_exists in A. destruct A as (x & X & Q). apply text_eqb_true in Q. now subst.
Qed.
Lemma reach_headers d f g : In g (reach d f) -> g = f \/ In g headers.
Proof.
  revert f. induction d as [|d IH]; intros f; cbn [reach].
  - intros [<-|[]]; auto.
  - intros [<-|G]; [auto|]. apply in_flat_map in G. destruct G as (h & H & G). apply includes_headers in H.
    destruct (IH _ G) as [->|]; auto.
Qed.
Lemma reads_prereqs u g : In g (reads u) -> In g (prereqs u).
Proof. intros G. apply reach_headers in G. destruct G as [->|G]; [left; reflexivity|right; exact G]. Qed.

Definition fresh (t : tree) (u : text) (o : object) (time : nat) : Prop :=
  o_unit o = u /\ time <= t_now t /\ (older t u time = false -> o_seen o = map (t_file t) (reads u)) /\
  (t_mtime t (source u) <= time -> hd [] (o_seen o) = t_file t (source u)).
Definition good (acc : list macros) (t : tree) : Prop :=
  (forall p, t_mtime t p <= t_now t) /\
  (forall u o time, t_obj t u = Some (o, time) -> fresh t u o time /\ In (o_flags o) acc).

Lemma older_new t u : (forall p, t_mtime t p <= t_now t) -> older t u (t_now t) = false.
Proof.
  intros H. unfold older. rewrite <- not_true_iff_false, existsb_exists. intros (p & _ & E).
  apply Nat.ltb_lt in E. specialize (H p). lia.
Qed.
Lemma new_fresh t u m : (forall p, t_mtime t p <= t_now t) ->
  fresh t u (Obj u m (map (t_file t) (reads u))) (t_now t).
Proof. intros Hm. split; [reflexivity|split; [lia|split; reflexivity]]. Qed.
Lemma remake_good acc t m u : good acc t ->
  forall o time, remake t m u = (o, time) -> fresh t u o time /\ older t u time = false /\ In (o_flags o) (m :: acc).
Proof.
  intros [Hm Ho] o time. unfold remake. destruct (t_obj t u) as [[o' t']|] eqn:E.
  - destruct (Ho _ _ _ E) as [F I]. destruct (older t u t') eqn:O; intros Q; injection Q as <- <-.
    + split; [now apply new_fresh|split; [now apply older_new|left; reflexivity]].
    + split; [exact F|split; [exact O|right; exact I]].
  - intros Q; injection Q as <- <-. split; [now apply new_fresh|split; [now apply older_new|left; reflexivity]].
Qed.
Lemma remake_test_good acc t u : good acc t ->
  forall o time, remake_test t u = (o, time) ->
    fresh t u o time /\ t_mtime t (source u) <= time /\ In (o_flags o) (test_macros :: acc).
Proof.
  intros [Hm Ho] o time. unfold remake_test. destruct (t_obj t u) as [[o' t']|] eqn:E.
  - destruct (Ho _ _ _ E) as [F I]. destruct (t' <? t_mtime t (source u)) eqn:O; intros Q; injection Q as <- <-.
    + split; [now apply new_fresh|split; [apply Hm|left; reflexivity]].
    + split; [exact F|split; [now apply Nat.ltb_ge in O|right; exact I]].
  - intros Q; injection Q as <- <-. split; [now apply new_fresh|split; [apply Hm|left; reflexivity]].
Qed.
Lemma later_good acc t exe : good acc t -> good acc (Tree (S (t_now t)) (t_file t) (t_mtime t) (t_obj t) exe).
Proof.
  intros [Hm Ho]. split; [intros p; cbn; specialize (Hm p); lia|]. intros u o time E.
  destruct (Ho u o time E) as [(U & T & F) I]. split; [|exact I]. split; [exact U|]. split; [cbn; lia|exact F].
Qed.
Lemma step_good acc t e : good acc t ->
  good (match e with Make v _ _ => macros_of v :: acc | MakeTest _ => Mac true true false :: acc | CleanSource => [] | _ => acc end) (step t e).
Proof.
  intros G. pose proof G as [Hm Ho]. destruct e as [p s|v goal keep|keep| |].
  - cbn [step]; cbv zeta. split; cbn [t_mtime t_now t_obj].
    + intros q. destruct (text_eqb q p); [lia|]. specialize (Hm q). lia.
    + intros u o time E. destruct (Ho _ _ _ E) as [(U & T & F & F0) I]. split; [|exact I].
      split; [exact U|]. split; [cbn [t_now]; lia|]. split.
      * intros O.
        assert (N : forall q, In q (prereqs u) -> text_eqb q p = false).
        { intros q Q. destruct (text_eqb q p) eqn:X; [|reflexivity]. exfalso.
          unfold older in O. rewrite <- not_true_iff_false, existsb_exists in O. apply O. exists q. split; [exact Q|].
          cbn [t_mtime]. rewrite X. apply Nat.ltb_lt. lia. }
        rewrite F.
        -- apply map_ext_in. intros q Q. apply reads_prereqs in Q. cbn [t_file]. now rewrite N.
        -- unfold older in *. rewrite <- not_true_iff_false, existsb_exists in *. intros (q & Q & L). apply O. exists q.
           split; [exact Q|]. cbn [t_mtime]. now rewrite N.
      * cbn [t_mtime t_file]. destruct (text_eqb (source u) p); [lia|exact F0].
  - set (t1 := Tree (S (t_now t)) (t_file t) (t_mtime t) (t_obj t) (t_exe t)).
    pose proof (later_good acc t (t_exe t) G) as G1. fold t1 in G1.
    split; [exact (proj1 G1)|]. intros u o time. cbn [step t_obj]. fold t1. destruct (existsb (text_eqb u) units).
    + destruct (keep u); [|discriminate]. intros E. injection E as E.
      destruct (remake_good acc t1 (macros_of v) u G1 _ _ E) as (F & _ & I). split; [exact F|exact I].
    + intros E. destruct (proj2 G1 u o time E) as [F I]. split; [exact F|right; exact I].
  - set (t1 := Tree (S (t_now t)) (t_file t) (t_mtime t) (t_obj t) (t_exe t)).
    pose proof (later_good acc t (t_exe t) G) as G1. fold t1 in G1.
    split; [exact (proj1 G1)|]. intros u o time. cbn [step t_obj]. fold t1. destruct (existsb (text_eqb u) test_units).
    + destruct (keep u); [|discriminate]. intros E. injection E as E.
      destruct (remake_test_good acc t1 u G1 _ _ E) as (F & _ & I). split; [exact F|exact I].
    + intros E. destruct (proj2 G1 u o time E) as [F I]. split; [exact F|right; exact I].
  - cbn [step]. split; cbn [t_mtime t_now t_obj]; [intros p; specialize (Hm p); lia|discriminate].
  - exact (later_good acc t (fun _ => None) G).
Qed.
Lemma happens_good evs : forall acc t, good acc t ->
  good (fold_left (fun acc e => match e with Make v _ _ => macros_of v :: acc | MakeTest _ => Mac true true false :: acc | CleanSource => [] | _ => acc end) evs acc)
       (happens t evs).
Proof. induction evs as [|e r IH]; cbn; intros acc t G; [exact G|]. apply IH, step_good, G. Qed.
Lemma checkout_good files : good [] (checkout files).
Proof. split; cbn; [auto|discriminate]. Qed.
Lemma happens_app t a b : happens t (a ++ b) = happens (happens t a) b.
Proof. apply fold_left_app. Qed.

(** ** The theorems *)
(** what the compiler reads for a unit is its source and is closed under #include *)
Theorem C100_reads_closed : forall u, In u units ->
  In (u ++ txt ".cpp") (reads u) /\ (forall f g, In f (reads u) -> In g (includes f) -> In g (reads u)).
Proof.
  intros u U. split; [left; reflexivity|]. intros f g F.
  assert (A : forallb (fun u => forallb (fun f => forallb (fun g => existsb (text_eqb g) (reads u)) (includes f)) (reads u)) units = true) by (vm_compute; reflexivity).
  rewrite forallb_forall in A. specialize (A u U). rewrite forallb_forall in A. specialize (A f F).
  rewrite forallb_forall in A. intros G. specialize (A g G). apply existsb_exists in A. destruct A as (x & X & E).
  apply text_eqb_true in E. now subst.
Qed.
(** After any history whatever of edits, builds and cleanings, an executable that make has just written is linked from
    one object per unit, each compiled from the contents that its source file and every header it includes, directly or not, have now: no stale code.  The
    options of each are those of some invocation since the last clean. *)
Theorem C100_sources_current : forall files evs v goal keep,
  let t := happens (checkout files) (evs ++ [Make v goal keep]) in
  exists os, t_exe t goal = Some os /\ map o_unit os = units /\
    (forall o, In o os -> o_seen o = map (t_file t) (reads (o_unit o))) /\
    (forall o, In o os -> In (o_flags o) (options (evs ++ [Make v goal keep]))).
Proof.
  intros files evs v goal keep. cbv zeta. rewrite happens_app. set (t := happens (checkout files) evs).
  assert (G : good (options evs) t) by (apply happens_good, checkout_good).
  cbn [happens fold_left step t_exe]. rewrite text_eqb_refl'.
  set (t1 := Tree (S (t_now t)) (t_file t) (t_mtime t) (t_obj t) (t_exe t)).
  assert (G1 : good (options evs) t1) by exact (later_good _ t _ G).
  exists (map (fun u => fst (remake t1 (macros_of v) u)) units). split; [reflexivity|].
  assert (K : forall u, o_unit (fst (remake t1 (macros_of v) u)) = u /\
     o_seen (fst (remake t1 (macros_of v) u)) = map (t_file t) (reads u) /\
     In (o_flags (fst (remake t1 (macros_of v) u))) (macros_of v :: options evs)).
  { intros u. destruct (remake t1 (macros_of v) u) as [o time] eqn:E.
    destruct (remake_good _ t1 _ u G1 _ _ E) as ((U & _ & F & _) & O & I). cbn [fst]. split; [exact U|split; [now apply F|exact I]]. }
  split; [|split].
  - rewrite map_map. rewrite (map_ext _ (fun u => u)) by (intros u; apply (proj1 (K u))). apply map_id.
  - intros o Q. apply in_map_iff in Q. destruct Q as (u & <- & _). rewrite (proj1 (K u)). apply (proj1 (proj2 (K u))).
  - intros o Q. apply in_map_iff in Q. destruct Q as (u & <- & _). unfold options. rewrite fold_left_app. cbn.
    apply (K u).
Qed.
(** the contents of a file are what was last written to it *)
Theorem C100_contents : forall files evs p,
  t_file (happens (checkout files) evs) p =
  fold_left (fun s e => match e with Edit q c => if text_eqb p q then c else s | _ => s end) evs (files p).
Proof.
  intros files evs p. change (files p) with (t_file (checkout files) p). generalize (checkout files).
  induction evs as [|e r IH]; intros t; [reflexivity|]. cbn [happens fold_left]. change (fold_left step r (step t e)) with (happens (step t e) r).
  rewrite IH. f_equal. destruct e; reflexivity.
Qed.

(** an executable stays as it was linked until one of the same name is made or Bin is cleaned; cleaning Bin removes all *)
Theorem C100_executable_stays : forall files evs evs' goal,
  (forall e, In e evs' -> match e with
     | Make _ g _ => g <> goal | MakeTest _ => goal <> txt "test.run" | CleanBin => False | _ => True end) ->
  t_exe (happens (checkout files) (evs ++ evs')) goal = t_exe (happens (checkout files) evs) goal /\
  t_exe (happens (checkout files) (evs ++ [CleanBin] ++ evs')) goal = None.
Proof.
  intros files evs evs' goal H.
  assert (K : forall t, t_exe (happens t evs') goal = t_exe t goal).
  { induction evs' as [|e r IH]; intros t; [reflexivity|]. cbn [happens fold_left].
    change (fold_left step r (step t e)) with (happens (step t e) r). rewrite IH by (intros x X; apply H; now right).
    specialize (H e (or_introl eq_refl)). destruct e as [p s|v g k|k| |]; cbn [step t_exe]; try reflexivity.
    - destruct (text_eqb goal g) eqn:E; [|reflexivity]. apply text_eqb_true in E. congruence.
    - destruct (text_eqb goal (txt "test.run")) eqn:E; [|reflexivity]. apply text_eqb_true in E. congruence.
    - destruct H. }
  split; [rewrite happens_app; apply K|]. rewrite !happens_app, K. reflexivity.
Qed.

Lemma build_of_uniform os m : os <> [] -> (forall o, In o os -> o_flags o = m) ->
  build_of os = Some (Build (d_cheb m) (d_contig m) (d_ndebug m)).
Proof.
  destruct os as [|o r]; [congruence|]. intros _ H. cbn. rewrite (H o) by (left; reflexivity).
  replace (forallb _ r) with true; [reflexivity|]. symmetry. apply forallb_forall. intros q Q.
  rewrite (H q) by (right; exact Q). unfold macros_eqb. now rewrite !Bool.eqb_reflx.
Qed.
Lemma units_ne os : map o_unit os = units -> os <> [].
Proof. intros H ->. discriminate. Qed.
Definition requested (v : mkvars) : build := Build (v_cheb v) (v_contig v || v_hyper v) (negb (v_debug v)).

(** If every invocation since the last clean asked for the same options, and in particular right after a clean, the
    executable is one program, of the configuration asked for.  The layout variable and
    use_hyperboloidal are the same. *)
Theorem C100_same_options : forall files evs v goal keep,
  (forall m, In m (options evs) -> m = macros_of v) ->
  exists os, t_exe (happens (checkout files) (evs ++ [Make v goal keep])) goal = Some os /\ build_of os = Some (requested v).
Proof.
  intros files evs v goal keep H.
  destruct (C100_sources_current files evs v goal keep) as (os & E & U & _ & F). exists os. split; [exact E|].
  rewrite (build_of_uniform os (macros_of v)); [reflexivity|now apply units_ne|].
  intros o Q. specialize (F o Q). unfold options in F. rewrite fold_left_app in F. cbn in F.
  destruct F as [F|F]; [now rewrite F|now apply H].
Qed.
Theorem C100_clean_build : forall files evs v goal keep,
  exists os, t_exe (happens (checkout files) (evs ++ [CleanSource; Make v goal keep])) goal = Some os /\
    build_of os = Some (requested v).
Proof.
  intros files evs v goal keep. replace (evs ++ [CleanSource; Make v goal keep]) with ((evs ++ [CleanSource]) ++ [Make v goal keep]) by now rewrite <- app_assoc.
  apply C100_same_options. unfold options. rewrite fold_left_app. cbn. tauto.
Qed.
(** the same when make deletes every object after linking *)
Theorem C100_no_object_survives : forall files evs v goal keep,
  (forall v' g' k', In (Make v' g' k') evs -> forall u, k' u = false) ->
  (forall k', In (MakeTest k') evs -> forall u, k' u = false) ->
  exists os, t_exe (happens (checkout files) (evs ++ [Make v goal keep])) goal = Some os /\ build_of os = Some (requested v).
Proof.
  intros files evs v goal keep H H'. rewrite happens_app.
  assert (N : forall u, t_obj (happens (checkout files) evs) u = None).
  { revert H H'. assert (N0 : forall u, t_obj (checkout files) u = None) by reflexivity. revert N0. generalize (checkout files).
    induction evs as [|e r IH]; intros t N0 H H'; [exact N0|]. cbn [happens fold_left].
    change (fold_left step r (step t e)) with (happens (step t e) r). apply IH.
    - intros u. destruct e as [p s|v' g' k'|k'| |]; cbn [step t_obj]; auto.
      + rewrite (H v' g' k' (or_introl eq_refl)). destruct (existsb _ _); auto.
      + rewrite (H' k' (or_introl eq_refl)). destruct (existsb _ _); auto.
    - intros v' g' k' I. apply (H v' g' k'). now right.
    - intros k' I. apply (H' k'). now right. }
  revert N. generalize (happens (checkout files) evs). intros t N. cbn [happens fold_left step t_exe]. rewrite text_eqb_refl'.
  eexists. split; [reflexivity|]. rewrite (build_of_uniform _ (macros_of v)); [reflexivity|discriminate|].
  intros o Q. apply in_map_iff in Q. destruct Q as (u & <- & _). unfold remake. cbn [t_obj]. now rewrite N.
Qed.

Definition no_objects (t : tree) : Prop := forall u, t_obj t u = None.
Lemma remake_kept t a f o e m u x : (forall p, t_mtime t p <= t_now t) -> o u = Some (x, S (t_now t)) ->
  remake (Tree a f (t_mtime t) o e) m u = (x, S (t_now t)).
Proof.
  intros Hm E. unfold remake. cbn [t_obj]. rewrite E.
  replace (older _ u (S (t_now t))) with false; [reflexivity|]. symmetry. unfold older.
  rewrite <- not_true_iff_false, existsb_exists. intros (p & _ & L). cbn [t_mtime] in L.
  apply Nat.ltb_lt in L. specialize (Hm p). lia.
Qed.
Lemma remake_none t m u : t_obj t u = None -> remake t m u = (Obj u m (map (t_file t) (reads u)), t_now t).
Proof. intros E. unfold remake. now rewrite E. Qed.
(** two invocations in a row with nothing built before *)
Lemma two_makes t v1 g1 k1 v2 g2 k2 : no_objects t -> (forall p, t_mtime t p <= t_now t) -> text_eqb g1 g2 = false ->
  t_exe (happens t [Make v1 g1 k1; Make v2 g2 k2]) g1 =
    Some (map (fun u => Obj u (macros_of v1) (map (t_file t) (reads u))) units) /\
  t_exe (happens t [Make v1 g1 k1; Make v2 g2 k2]) g2 =
    Some (map (fun u => Obj u (if k1 u then macros_of v1 else macros_of v2) (map (t_file t) (reads u))) units).
Proof.
  intros N Hm D. unfold no_objects in N. cbn [happens fold_left]. split.
  - cbn [step t_exe]. rewrite D, text_eqb_refl'. f_equal. apply map_ext. intros u. now rewrite remake_none by apply N.
  - cbn [step t_exe]. rewrite text_eqb_refl'. f_equal. apply map_ext_in. intros u Q.
    assert (X : existsb (text_eqb u) units = true) by (apply existsb_exists; exists u; split; [exact Q|apply text_eqb_refl']).
    cbv zeta. cbn [t_now t_file t_mtime t_obj t_exe]. destruct (k1 u) eqn:K.
    + erewrite remake_kept; [|exact Hm|]. 2:{ rewrite X, K. rewrite remake_none by apply N. reflexivity. } reflexivity.
    + rewrite remake_none; [reflexivity|]. cbn [t_obj]. now rewrite X, K.
Qed.

(** config.py from a tree without objects (k1: the objects that its first invocation of make leaves behind).
    The Chebyshev executable is one program, as requested. *)
Theorem C100_config_cheb : forall files evs debug k1 k2, no_objects (happens (checkout files) evs) ->
  exists os, t_exe (happens (checkout files) (evs ++ config debug k1 k2)) (txt "default_cheb.run") = Some os /\
    build_of os = Some (Build true true (negb debug)).
Proof.
  intros files evs debug k1 k2 N. rewrite happens_app. unfold config.
  destruct (happens_good evs [] _ (checkout_good files)) as [Hm _].
  eexists. split; [eapply (fun D => proj1 (two_makes _ _ _ _ _ _ _ N Hm D)); reflexivity|].
  apply (build_of_uniform _ (Mac true true (negb debug))); [discriminate|].
  intros o Q. apply in_map_iff in Q. destruct Q as (u & <- & _). reflexivity.
Qed.
(** In the finite difference executable exactly the units whose object survived are compiled with USE_CHEB. *)
Theorem C100_config_fd : forall files evs debug k1 k2, no_objects (happens (checkout files) evs) ->
  exists os, t_exe (happens (checkout files) (evs ++ config debug k1 k2)) (txt "default_fd.run") = Some os /\
    map o_unit os = units /\ (forall o, In o os -> o_flags o = Mac (k1 (o_unit o)) true (negb debug)).
Proof.
  intros files evs debug k1 k2 N. rewrite happens_app. unfold config.
  destruct (happens_good evs [] _ (checkout_good files)) as [Hm _].
  eexists. split; [eapply (fun D => proj2 (two_makes _ _ _ _ _ _ _ N Hm D)); reflexivity|]. split.
  - rewrite map_map. apply map_id.
  - intros o Q. apply in_map_iff in Q. destruct Q as (u & <- & _). cbn. destruct (k1 u); reflexivity.
Qed.
(** No unit that an object survives for may test USE_CHEB: those that do not are params, cheb, finite_diff, sphere, field.
    Then every unit of the finite difference executable has the text that the request gives it. *)
Theorem C100_config_ok : forall files evs debug k1 k2, no_objects (happens (checkout files) evs) ->
  (forall u, In u units -> k1 u = true -> In u (map txt ["params"; "cheb"; "finite_diff"; "sphere"; "field"]%string)) ->
  exists os, t_exe (happens (checkout files) (evs ++ config debug k1 k2)) (txt "default_fd.run") = Some os /\
    map o_unit os = units /\
    (forall o, In o os -> tested (o_unit o) (o_flags o) = tested (o_unit o) (Mac false true (negb debug))).
Proof.
  intros files evs debug k1 k2 N H. destruct (C100_config_fd files evs debug k1 k2 N) as (os & E & U & F).
  exists os. split; [exact E|split; [exact U|]]. intros o Q. rewrite (F o Q).
  assert (I : In (o_unit o) units) by (rewrite <- U; now apply in_map).
  destruct (k1 (o_unit o)) eqn:K; [|reflexivity].
  specialize (H _ I K). cbn [map In] in H.
  destruct H as [<-|[<-|[<-|[<-|[<-|[]]]]]]; reflexivity.
Qed.
(** If a surviving object is one of the others, the two are mixed: grid.o of the Chebyshev build in the finite
    difference executable.  In the extreme, when no object is deleted (make with .SECONDARY, or objects named as explicit targets), config.py
    builds the Chebyshev program twice. *)
Theorem C100_config_refuted :
  (exists k1, forall files evs debug k2, no_objects (happens (checkout files) evs) ->
     exists os, t_exe (happens (checkout files) (evs ++ config debug k1 k2)) (txt "default_fd.run") = Some os /\
       build_of os = None /\
       exists o, In o os /\ o_unit o = txt "grid" /\ tested (o_unit o) (o_flags o) = Mac true true (negb debug)) /\
  (forall files evs debug k2, no_objects (happens (checkout files) evs) ->
     exists os, t_exe (happens (checkout files) (evs ++ config debug (fun _ => true) k2)) (txt "default_fd.run") = Some os /\
       build_of os = Some (Build true true (negb debug))).
Proof.
  split.
  - exists (text_eqb (txt "grid")). intros files evs debug k2 N. rewrite happens_app. unfold config.
    destruct (happens_good evs [] _ (checkout_good files)) as [Hm _].
    eexists. split; [eapply (fun D => proj2 (two_makes _ _ _ _ _ _ _ N Hm D)); reflexivity|]. split; [destruct debug; reflexivity|].
    eexists. split; [apply in_map_iff; exists (txt "grid"); split; [reflexivity|cbn; tauto]|]. split; reflexivity.
  - intros files evs debug k2 N. destruct (C100_config_fd files evs debug (fun _ => true) k2 N) as (os & E & U & F).
    exists os. split; [exact E|]. apply (build_of_uniform _ (Mac true true (negb debug))); [now apply units_ne|exact F].
Qed.

Definition fd_only : text -> bool := text_eqb (txt "finite_diff").
Definition only (t : tree) (x : object) (time : nat) : Prop :=
  (forall p, t_mtime t p <= time) /\ (forall u, t_obj t u = if fd_only u then Some (x, time) else None).
Lemma only_make t x time v goal keep : only t x time ->
  t_exe (step t (Make v goal keep)) goal =
    Some (map (fun u => if fd_only u then x else Obj u (macros_of v) (map (t_file t) (reads u))) units) /\
  ((forall u, keep u = fd_only u) -> only (step t (Make v goal keep)) x time).
Proof.
  intros [Hm Ho].
  assert (R : forall u, remake (Tree (S (t_now t)) (t_file t) (t_mtime t) (t_obj t) (t_exe t)) (macros_of v) u =
    if fd_only u then (x, time) else (Obj u (macros_of v) (map (t_file t) (reads u)), S (t_now t))).
  { intros u. unfold remake. cbn [t_obj]. rewrite Ho. destruct (fd_only u); [|reflexivity].
    replace (older _ u time) with false; [reflexivity|]. symmetry. unfold older.
    rewrite <- not_true_iff_false, existsb_exists. intros (p & _ & L). cbn [t_mtime] in L.
    apply Nat.ltb_lt in L. specialize (Hm p). lia. }
  split.
  - cbn [step t_exe]. rewrite text_eqb_refl'. f_equal. apply map_ext. intros u. rewrite R. now destruct (fd_only u).
  - intros K. split; [exact Hm|]. intros u. cbn [step t_obj]. rewrite R, K, Ho.
    destruct (existsb (text_eqb u) units) eqn:X; destruct (fd_only u) eqn:F; reflexivity.
Qed.
(** A debug build after a release build without a clean in between: each object that stays up to date keeps NDEBUG.
    With finite_diff.o the only survivor (as with GNU make 4.3) the assertions of the finite difference unit stay off in both
    executables built with debug=true. *)
Theorem C100_debug_refuted : forall files evs k1 k2 k3 k4, no_objects (happens (checkout files) evs) ->
  (forall u, k1 u = fd_only u) -> (forall u, k2 u = fd_only u) -> (forall u, k3 u = fd_only u) ->
  forall goal, goal = txt "default_cheb.run" \/ goal = txt "default_fd.run" ->
  exists os, t_exe (happens (checkout files) (evs ++ config false k1 k2 ++ config true k3 k4)) goal = Some os /\
    map o_unit os = units /\ (forall o, In o os -> d_ndebug (o_flags o) = fd_only (o_unit o)).
Proof.
  intros files evs k1 k2 k3 k4 N K1 K2 K3 goal Hg. rewrite happens_app. unfold config.
  destruct (happens_good evs [] _ (checkout_good files)) as [Hm _].
  set (t0 := happens (checkout files) evs) in *. cbn [app happens fold_left].
  set (v1 := Vars false true true false). set (v2 := Vars false false true false).
  set (v3 := Vars true true true false). set (v4 := Vars true false true false).
  set (t1 := step t0 (Make v1 (bin_name v1) k1)).
  set (x := Obj (txt "finite_diff") (macros_of v1) (map (t_file t0) (reads (txt "finite_diff")))).
  assert (O1 : only t1 x (S (t_now t0))).
  { split; [intros p; unfold t1; cbn [step t_mtime]; specialize (Hm p); lia|].
    intros u. unfold t1. cbn [step t_obj]. rewrite K1. rewrite remake_none by apply N.
    destruct (fd_only u) eqn:F; [|rewrite N; now destruct (existsb _ _)].
    unfold fd_only in F. apply text_eqb_true in F. subst u. reflexivity. }
  set (t2 := step t1 (Make v2 (bin_name v2) k2)).
  assert (O2 : only t2 x (S (t_now t0))) by (apply only_make; assumption).
  set (t3 := step t2 (Make v3 (bin_name v3) k3)).
  assert (O3 : only t3 x (S (t_now t0))) by (apply only_make; assumption).
  assert (F : forall m os, os = map (fun u => if fd_only u then x else Obj u m (map (t_file t3) (reads u))) units -> d_ndebug m = false ->
    map o_unit os = units /\ (forall o, In o os -> d_ndebug (o_flags o) = fd_only (o_unit o))).
  { intros m os -> M. split; [reflexivity|]. intros o Q. apply in_map_iff in Q. destruct Q as (u & <- & _).
    destruct (fd_only u) eqn:E; cbn; [reflexivity|]. now rewrite E. }
  destruct Hg as [->| ->].
  - eexists. split; [|apply (F (macros_of v3)); reflexivity].
    change (t_exe t3 (bin_name v3) = Some (map (fun u => if fd_only u then x else Obj u (macros_of v3) (map (t_file t3) (reads u))) units)).
    unfold t3 at 1. rewrite (proj1 (only_make t2 x _ v3 (bin_name v3) k3 O2)). reflexivity.
  - eexists. split; [|apply (F (macros_of v4)); reflexivity].
    exact (proj1 (only_make t3 x _ v4 (bin_name v4) k4 O3)).
Qed.

(** sim.recompile=True on a tree without objects: whatever the executable is called, what is built is the finite
    difference program with the other spherical layout, with assertions off; `make clean_objX' cleans nothing, but matches %.run too and so
    writes a second executable. *)
Theorem C100_recompile : forall files evs bin k1 k2, no_objects (happens (checkout files) evs) ->
  exists os, build_of os = Some (Build false false true) /\
    t_exe (happens (checkout files) (evs ++ recompile bin k1 k2)) bin = Some os /\
    t_exe (happens (checkout files) (evs ++ recompile bin k1 k2)) (txt "clean_obj" ++ bin) = Some os.
Proof.
  intros files evs bin k1 k2 N. rewrite happens_app. unfold recompile.
  destruct (happens_good evs [] _ (checkout_good files)) as [Hm _].
  assert (D : text_eqb (txt "clean_obj" ++ bin) bin = false).
  { destruct (text_eqb _ _) eqn:E; [|reflexivity]. apply text_eqb_true in E. apply (f_equal (@List.length _)) in E.
    rewrite app_length in E. cbn in E. lia. }
  destruct (two_makes (happens (checkout files) evs) (Vars false false false false) _ k1 (Vars false false false false) _ k2 N Hm D) as [E1 E2].
  exists (map (fun u => Obj u (Mac false false true) (map (t_file (happens (checkout files) evs)) (reads u))) units).
  split; [|split].
  - apply (build_of_uniform _ (Mac false false true)); [discriminate|]. intros o Q. apply in_map_iff in Q.
    destruct Q as (u & <- & _). reflexivity.
  - rewrite E2. f_equal. apply map_ext. intros u. now destruct (k1 u).
  - rewrite E1. reflexivity.
Qed.

(** ** The test program, and what it leaves behind *)
(** test.run is linked from objects in Source.  Each has the options of the test or of an earlier invocation, and the source
    text of now; but not the headers of now, because the rule of Test/Makefile does not depend on them. *)
Theorem C100_test_program : forall files evs keep,
  let t := happens (checkout files) (evs ++ [MakeTest keep]) in
  exists os, t_exe t (txt "test.run") = Some os /\
    map o_unit os = map txt ["finite_diff"; "cheb"; "sphere"; "grid"]%string /\
    (forall o, In o os -> hd [] (o_seen o) = t_file t (source (o_unit o))) /\
    (forall o, In o os -> In (o_flags o) (options (evs ++ [MakeTest keep]))).
Proof.
  intros files evs keep. cbv zeta. rewrite happens_app. set (t := happens (checkout files) evs).
  assert (G : good (options evs) t) by (apply happens_good, checkout_good).
  cbn [happens fold_left step t_exe]. rewrite text_eqb_refl'.
  set (t1 := Tree (S (t_now t)) (t_file t) (t_mtime t) (t_obj t) (t_exe t)).
  assert (G1 : good (options evs) t1) by exact (later_good _ t _ G).
  exists (map (fun u => fst (remake_test t1 u)) test_units). split; [reflexivity|].
  assert (K : forall u, o_unit (fst (remake_test t1 u)) = u /\
     hd [] (o_seen (fst (remake_test t1 u))) = t_file t (source u) /\
     In (o_flags (fst (remake_test t1 u))) (test_macros :: options evs)).
  { intros u. destruct (remake_test t1 u) as [o time] eqn:E.
    destruct (remake_test_good _ t1 u G1 _ _ E) as ((U & _ & _ & F) & O & I). cbn [fst].
    split; [exact U|split; [now apply F|exact I]]. }
  split; [|split].
  - rewrite map_map. rewrite (map_ext _ (fun u => u)) by (intros u; apply (proj1 (K u))). apply map_id.
  - intros o Q. apply in_map_iff in Q. destruct Q as (u & <- & _). rewrite (proj1 (K u)). apply (proj1 (proj2 (K u))).
  - intros o Q. apply in_map_iff in Q. destruct Q as (u & <- & _). unfold options. rewrite fold_left_app. cbn.
    apply (K u).
Qed.
(** GNU make 4.3 leaves cheb.o and sphere.o, which are listed twice *)
Definition test_left (u : text) : bool := text_eqb u (txt "cheb") || text_eqb u (txt "sphere").
(** The test program built again after a header is edited still has the old text: what it tests is not the present code. *)
Theorem C100_test_current_refuted : forall files s keep, s <> files (txt "cheb.hpp") ->
  let t := happens (checkout files) [MakeTest test_left; Edit (txt "cheb.hpp") s; MakeTest keep] in
  exists os o, t_exe t (txt "test.run") = Some os /\ In o os /\ o_unit o = txt "cheb" /\
    In (txt "cheb.hpp") (reads (txt "cheb")) /\
    o_seen o <> map (t_file t) (reads (txt "cheb")) /\
    o_seen o = map files (reads (txt "cheb")).
Proof.
  intros files s keep H. cbv zeta. eexists; eexists. split; [reflexivity|]. split; [apply in_cons, in_eq|].
  split; [reflexivity|]. split; [right; left; reflexivity|]. split; [|reflexivity].
  intros E. apply H. symmetry. vm_compute in E. injection E as E. exact E.
Qed.
(** After `make test' without a clean, with the survivors of GNU make 4.3 (k1): recompile=True links the sphere unit of the
    test, which has contiguous longitudes, with a grid unit that has not.  The point numbers of the two then mean different points. *)
Theorem C100_test_then_recompile_refuted : forall files bin k2,
  let k1 := fun u => fd_only u || test_left u in
  exists os sphere grid, t_exe (happens (checkout files) (MakeTest test_left :: recompile bin k1 k2)) bin = Some os /\
    build_of os = None /\
    In sphere os /\ o_unit sphere = txt "sphere" /\ tested (o_unit sphere) (o_flags sphere) = Mac false true false /\
    In grid os /\ o_unit grid = txt "grid" /\ tested (o_unit grid) (o_flags grid) = Mac false false true.
Proof.
  intros files bin k2. cbv zeta. do 3 eexists. split.
  - unfold recompile. cbn [happens fold_left]. cbn [step t_exe]. rewrite text_eqb_refl'. reflexivity.
  - split; [vm_compute; reflexivity|]. split; [do 3 apply in_cons; apply in_eq|]. split; [reflexivity|]. split; [reflexivity|].
    split; [do 4 apply in_cons; apply in_eq|]. split; reflexivity.
Qed.

(** Hypotheses met: a checkout has no objects; neither has a history that ends in make clean_Source. *)
Theorem C100_nonvacuous : forall files,
  no_objects (happens (checkout files) []) /\
  (forall evs, no_objects (happens (checkout files) (evs ++ [CleanSource]))) /\
  (* edited after the build: the next executable has the new text, and only the edited unit is compiled again *)
  let v := Vars true true true false in
  let w := Vars false true true false in
  exists os, t_exe (happens (checkout files)
      [Make v (bin_name v) (fun _ => true); Edit (source (txt "io")) (txt "new"); Make w (bin_name w) (fun _ => true)]) (bin_name w) = Some os /\
    map o_flags os = map (fun u => if text_eqb u (txt "io") then macros_of w else macros_of v) units /\
    build_of os = None /\
    (exists o, In o os /\ o_unit o = txt "io" /\ hd [] (o_seen o) = txt "new").
Proof.
  intros files. split; [intros u; reflexivity|]. split.
  - intros evs u. rewrite happens_app. reflexivity.
  - cbv zeta. eexists. split; [reflexivity|]. split; [reflexivity|]. split; [reflexivity|].
    eexists. split; [|split].
    + do 5 apply in_cons. apply in_eq.
    + reflexivity.
    + reflexivity.
Qed.
