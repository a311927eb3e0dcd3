(** * Model of namespace Csv: Source/io.cpp. *)
From Coq Require Import Ascii String DecimalString Decimal.
From Verif Require Import Base Arith MSphere MGrid MParams.

(** File system: contents by name ([None]: no such file) and which names can be opened for append. *)
Record fsys := Fs { fs_file : text -> option text; fs_can : text -> bool }.
(** std::ofstream out; out.open(name, std::ios::app); out << data; out.close() *)
Definition fs_append (fs : fsys) (name data : text) : fsys :=
  Fs (fun n => if text_eqb n name
               then Some ((match fs_file fs name with Some s => s | None => [] end) ++ data)
               else fs_file fs n) (fs_can fs).

(** std::to_string for an integer *)
Definition dec (z : Z) : text := txt (NilZero.string_of_int (Z.to_int z)).
Definition endl : text := [nl_char].
Definition comma : text := txt ",".

(** The rows "a,b,...,z\n": all but the last entry followed by a comma (io.cpp:64-67, 71-76). *)
Definition join_line (cells : list text) (last : text) : text :=
  List.concat (List.map (fun c => c ++ comma) cells) ++ last ++ endl.

Section Io.
Context {F : Type} {AF : Arith F}.
(** operator<<(double) with setprecision(16): a parameter of the model *)
Variable fmt : F -> text.

(** io.cpp:19-41 *)
Definition name_write (name : text) (itm : nat) : text := name ++ txt "_" ++ dec (Z.of_nat itm) ++ txt ".csv".
Definition csv_write (fs : fsys) (name : text) (itm : nat) (vals : list F) : fsys :=
  let fn := name_write name itm in
  if fs_can fs fn then fs_append fs fn (List.concat (List.map (fun x => fmt x ++ endl) vals)) else fs.

(** io.cpp:53, 95, 149; itm is an int *)
Definition name_kind (kind : string) (name : text) (itm : Z) : text :=
  name ++ txt "_" ++ txt kind ++ txt "_" ++ dec itm ++ txt ".csv".

(** io.cpp:75, 117 *)
Definition log10_floor (x : F) : F :=
  if flt x (fdec 1 (-16)) then fofZ (-16) else fdiv (flog x) (flog (fofZ 10)).

(** io.cpp:69-77, 111-119: the rows of a spectrum file; [tab] is the n_l or R_l table *)
Definition psl_row (tab : list (list F)) (ps : list F) (i : nat) : res text :=
  let! row := tab.[i] in let! a := row.[0] in let! c := row.[1] in
  let! x := ps.[i] in
  Ok (join_line [fmt a; fmt c] (fmt (log10_floor x))).
Definition psl_body (tab : list (list F)) (ps : list F) : res text :=
  for_ 0 (List.length ps) (fun i out => let! r := psl_row tab ps i in Ok (out ++ r)) [].

(** io.cpp:88-127 *)
Definition header_R_l : text := join_line [txt "R"; txt "l"] (txt "log(value)").
Definition write_R_psl (fs : fsys) (g : grid F) (name : text) (save_coords : bool) (itm : Z) (vals : list F) : res fsys :=
  let fn := name_kind "RPsl" name itm in
  let! ps := set_angular_power_spectrum g vals (vec (g_nx g * g_nl g) f0) in
  if fs_can fs fn then
    let! body := psl_body (g_R_l g) ps in
    Ok (fs_append fs fn ((if save_coords then header_R_l else []) ++ body))
  else Ok fs.

(** io.cpp:46-85 (Chebyshev builds) *)
Definition header_n_l : text := join_line [txt "n"; txt "l"] (txt "log(value)").
Definition write_n_psl (fs : fsys) (g : grid F) (name : text) (save_coords : bool) (itm : Z) (vals : list F) : res fsys :=
  let fn := name_kind "NPsl" name itm in
  let! ps := set_n_l_coef g vals (vec (g_nx g * g_nl g) f0) in
  if fs_can fs fn then
    let! body := psl_body (g_n_l g) ps in
    Ok (fs_append fs fn ((if save_coords then header_n_l else []) ++ body))
  else Ok fs.

(** io.cpp:129-136 *)
Definition magnitude (v : list F) : F :=
  fpowh (fold_left (fun mag x => fadd mag (fpow x 2)) v f0).

(** io.cpp:138-182 *)
Definition header_xyz : text := join_line [txt "x"; txt "y"; txt "z"] (txt "value").
Definition xyz_row (g : grid F) (vmin vmax rmin rmax : F) (vals : list F) (i : nat) : res text :=
  let! v := vals.[i] in
  let! xyz := x_y_z_i g i in
  if flt vmin (fabs v) && flt (fabs v) vmax && flt rmin (magnitude xyz) && flt (magnitude xyz) rmax then
    let! x := xyz.[0] in let! y := xyz.[1] in let! z := xyz.[2] in
    Ok (join_line [fmt x; fmt y; fmt z] (fmt v))
  else Ok [].
Definition write_x_y_z (fs : fsys) (g : grid F) (name : text) (save_coords : bool) (itm : Z)
    (vmin vmax rmin rmax : F) (vals : list F) : res fsys :=
  let fn := name_kind "XYZ" name itm in
  if fs_can fs fn then
    let! body := for_ 0 (List.length vals) (fun i out =>
        let! r := xyz_row g vmin vmax rmin rmax vals i in Ok (out ++ r)) [] in
    Ok (fs_append fs fn ((if save_coords then header_xyz else []) ++ body))
  else Ok fs.

End Io.
