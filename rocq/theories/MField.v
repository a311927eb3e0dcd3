(** * Model of class Field: Source/field.hpp, Source/field.cpp. *)
From Verif Require Import Base Arith MParams.

Section Field.
Context {F : Type} {AF : Arith F}.
(** field.hpp:23-30 *)
Record field := Fld { fl_name : text; fl_n : list F; fl_l : list F; fl_np1 : list F; fl_k : list F; fl_size : nat }.
(** field.cpp:4-19 *)
Definition Field_make (name : text) (size : nat) (x : F) : field :=
  Fld name (vec size x) (vec size x) (vec size x) (vec size x) size.
Definition with_n (f : field) v := Fld (fl_name f) v (fl_l f) (fl_np1 f) (fl_k f) (fl_size f).
Definition with_l (f : field) v := Fld (fl_name f) (fl_n f) v (fl_np1 f) (fl_k f) (fl_size f).
Definition with_np1 (f : field) v := Fld (fl_name f) (fl_n f) (fl_l f) v (fl_k f) (fl_size f).
Definition with_k (f : field) v := Fld (fl_name f) (fl_n f) (fl_l f) (fl_np1 f) v (fl_size f).
(** field.cpp:25-31 *)
Definition shift (f : field) : res field :=
  let! n := for_ 0 (fl_size f) (fun i n => let! x := (fl_np1 f).[i] in n.[i <- x]) (fl_n f) in
  Ok (with_n f n).
End Field.
Arguments field F : clear implicits.
