(** * Specification vocabulary for numbers written as decimal text. *)
From Coq Require Import Ascii String Reals.
From Verif Require Import Base MParams PText PParams.
Local Open Scope R_scope.

(** [t] is a decimal numeral (sign, digits with an optional point, optional exponent) and [v] is the number it denotes. *)
Definition decimal_text (t : text) (v : R) : Prop :=
  exists sg k ip point fp ex E,
    t = sg ++ ip ++ point ++ ex /\ In (sg, k) signs /\ numeral (ip ++ fp) /\
    (point = [] /\ fp = [] \/ point = "."%char :: fp) /\
    (ex = [] /\ E = 0%Z \/
     exists c se ke ed, (c = "e"%char \/ c = "E"%char) /\ In (se, ke) signs /\ numeral ed /\ ex = c :: se ++ ed /\ E = (ke * place_value ed)%Z) /\
    v = IZR (k * place_value (ip ++ fp)) * powerRZ 10 (E - Z.of_nat (length fp)).

(** [v] has at most [p] significant decimal digits *)
Definition few_digits (p : Z) (v : R) : Prop :=
  exists n k : Z, (Z.abs n < 10 ^ p)%Z /\ v = IZR n * powerRZ 10 k.
