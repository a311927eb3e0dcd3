(** A small concrete grid, right-hand side and state over the toy arithmetic: everything below is run
    by the kernel's evaluator, with asserts compiled in, in the finite-difference build. *)
From Verif Require Import Base Arith MFd MCheb MSphere MGrid MParams MField MEom Toy.
#[local] Existing Instance Z_arith.

Definition toy_bld : build := Build false true false.
Definition toy_grid_r : res (grid Z) := Grid_make toy_bld (toy_sht 2 1 3 4) 100%Z 10%Z 90%Z 9 2 1 3 4.
Definition toy_coef : coef Z := let o := 1%Z in Cf o o o o o o o o o o o o o o o o o.
Definition toy_eom (g : grid Z) : eom Z :=
  let z := vec (g_n3 g) 0%Z in
  Eom (g_n3 g) 1%Z 0%Z 1%Z 0%Z 0%Z 1%Z 0%Z 0%Z (vec (g_n3 g) toy_coef) (Scr z z z z z z z).
Definition toy_field (g : grid Z) (c : Z) : field Z :=
  let v := map (fun i => (c * Z.of_nat i)%Z) (seq 0 (g_n3 g)) in Fld [] v v v v (g_n3 g).

Definition okb {A} (r : res A) : bool := match r with Ok _ => true | _ => false end.
Lemma okb_ex {A} (r : res A) : okb r = true -> exists a, r = Ok a.
Proof. destruct r; try discriminate. eauto. Qed.

Lemma toy_run : exists g f' p' e', toy_grid_r = Ok g /\ g_n3 g = 108 /\
  time_step g (toy_eom g) (toy_field g 1) (toy_field g 2) = Ok (f', p', e').
Proof.
  assert (H : okb (let! g := toy_grid_r in let! x := time_step g (toy_eom g) (toy_field g 1) (toy_field g 2) in
                   if Nat.eqb (g_n3 g) 108 then Ok x else UB) = true) by (vm_compute; reflexivity).
  destruct toy_grid_r as [g| | | |]; try discriminate. cbn [bind] in H.
  destruct (time_step g (toy_eom g) (toy_field g 1) (toy_field g 2)) as [[[f' p'] e']| | | |] eqn:E; try discriminate. cbn [bind] in H.
  destruct (Nat.eqb_spec (g_n3 g) 108); [|discriminate]. exists g, f', p', e'. auto.
Qed.
