(** Vocabulary for C96: which radial indices a finite-difference formula reads, and agreement of two grid
    functions on a set of shells. *)
From Verif Require Import Base Arith MGrid MField MEom GridSpec RkSpec.
Local Open Scope nat_scope.

(** jx may enter the first or second radial derivative at ix: three neighbours on either side in the interior,
    the eight first (last) points for the three first (last) points *)
Definition stencil (nx ix jx : nat) : Prop :=
  jx < nx /\ (if ix <? 3 then jx <= 7 else if ix <? nx - 3 then ix - 3 <= jx <= ix + 3 else nx - 8 <= jx).
Definition reach (nx : nat) (S : nat -> Prop) (jx : nat) : Prop := exists ix, S ix /\ ix < nx /\ stencil nx ix jx.
(** k formulas applied one after the other *)
Fixpoint reach_n (nx k : nat) (S : nat -> Prop) : nat -> Prop :=
  match k with O => S | Datatypes.S k' => reach nx (reach_n nx k' S) end.

Section Sp.
Context {F : Type} {AF : Arith F}.
Definition agree_on (g : grid F) (S : nat -> Prop) (v v' : list F) : Prop :=
  forall ix, ix < g_nx g -> S ix -> shell g v ix = shell g v' ix.
(** j iterations of the main loop (main.cpp:68-95, without output) *)
Fixpoint evolve (g : grid F) (j : nat) (st : field F * field F * eom F) : res (field F * field F * eom F) :=
  match j with
  | O => Ok st
  | S j => let '(f, p, e) := st in
      let! (f, p, e) := time_step g e f p in let! f := shift f in let! p := shift p in evolve g j (f, p, e)
  end.
End Sp.
