(** * Model of class Params: Source/params.hpp, Source/params.cpp.
    Text is [list ascii] (bytes); the file is its byte sequence. *)
From Coq Require Import Ascii String.
From Verif Require Import Base Arith.

Definition text := list ascii.
Definition txt (s : string) : text := list_ascii_of_string s.
Definition text_eqb (a b : text) : bool := if list_eq_dec ascii_dec a b then true else false.

Definition nl_char : ascii := ascii_of_nat 10.
Definition sp_char : ascii := ascii_of_nat 32.

(** Text up to the first occurrence of a delimiter, and what follows it (if it occurs):
    std::getline(stream, s, c). *)
Fixpoint cut (c : ascii) (s : text) : text * option text :=
  match s with
  | [] => ([], None)
  | x :: s' => if Ascii.eqb x c then ([], Some s')
               else let '(a, r) := cut c s' in (x :: a, r)
  end.

(** The successive results of "while (std::getline(infile,line))": a last line without newline is
    returned if it is not empty (an empty remainder sets failbit). [fuel] only bounds recursion. *)
Fixpoint lines_fuel (fuel : nat) (s : text) : list text :=
  match fuel with
  | O => []
  | S k => match cut nl_char s with
           | (a, Some r) => a :: lines_fuel k r
           | ([], None) => []
           | (a, None) => [a]
           end
  end.
Definition lines (s : text) : list text := lines_fuel (S (length s)) s.

(** isspace in the "C" locale: blank, \t \n \v \f \r *)
Definition is_space (c : ascii) : bool :=
  let n := nat_of_ascii c in Nat.eqb n 32 || (Nat.leb 9 n && Nat.leb n 13).
Fixpoint skip_ws (s : text) : text :=
  match s with [] => [] | c :: s' => if is_space c then skip_ws s' else s end.
Fixpoint take_word (s : text) : text :=
  match s with [] => [] | c :: s' => if is_space c then [] else c :: take_word s' end.
(** stream >> std::string: skip white space, take up to the next white space (empty at the end). *)
Definition word (s : text) : text := take_word (skip_ws s).

(** params.cpp:61-87, the loop over lines *)
Fixpoint read_lines (ls : list text) (key : text) : res text :=
  match ls with
  | [] => Exit 0                                    (* 85-86: std::quick_exit(0) *)
  | l :: ls' =>
      let '(name, rest) := cut sp_char l in         (* 73-74 *)
      if text_eqb name key                          (* 75 *)
      then Ok (match rest with Some r => word r | None => [] end)   (* 77-82 *)
      else read_lines ls' key
  end.
(** [file = None] models a file that cannot be opened: assert(infile.good()), and in a release build
    getline fails at once. *)
Definition p_read (b : build) (file : option text) (key : text) : res text :=
  match file with
  | None => if ndebug b then Exit 0 else Abort
  | Some s => read_lines (lines s) key
  end.

(** std::stoi: optional white space, optional sign, longest digit prefix (strtol base 10);
    throws without digits or outside the range of int. *)
Definition digit (c : ascii) : option Z :=
  let n := nat_of_ascii c in
  if Nat.leb 48 n && Nat.leb n 57 then Some (Z.of_nat n - 48)%Z else None.
Fixpoint digits (acc : Z) (s : text) : Z :=
  match s with
  | [] => acc
  | c :: s' => match digit c with Some d => digits (10 * acc + d)%Z s' | None => acc end
  end.
Definition signed_digits (s : text) : option Z :=
  let unsigned s := match s with
                    | c :: _ => match digit c with Some _ => Some (digits 0 s) | None => None end
                    | [] => None
                    end in
  match s with
  | c :: s' => if Ascii.eqb c "-"%char then option_map Z.opp (unsigned s')
               else if Ascii.eqb c "+"%char then unsigned s'
               else unsigned s
  | [] => None
  end.
Definition stoi (s : text) : res Z :=
  match signed_digits (skip_ws s) with
  | Some z => if (- 2 ^ 31 <=? z)%Z && (z <? 2 ^ 31)%Z then Ok z else Throw
  | None => Throw
  end.
(** assignment of an int to a size_t member *)
Definition to_size (z : Z) : nat := Z.to_nat (u64 z).

Section Params.
Context {F : Type} {AF : Arith F}.
(** std::stod is a parameter of the model: [None] means it throws. *)
Variable stod_ : text -> option F.
Definition stod (s : text) : res F := match stod_ s with Some x => Ok x | None => Throw end.

(** params.hpp:23-60 (without _ngrids, never set) *)
Record params := Par {
  pr_nt : nat; pr_nx : nat; pr_nl : nat; pr_nm : nat; pr_nlat : nat; pr_nphi : nat; pr_t_step_save : nat;
  pr_dt : F; pr_cl : F; pr_Rmax : F; pr_Rmin : F; pr_bh_mass : F; pr_bh_spin : F;
  pr_km1 : F; pr_k0 : F; pr_k1 : F; pr_k2 : F; pr_V2 : F; pr_V3 : F; pr_V4 : F;
  pr_id_type : text; pr_direction : text;
  pr_amp : F; pr_rl : F; pr_ru : F; pr_l_ang : Z; pr_m_ang : Z }.

(** params.cpp:11-55 *)
Definition Params_make (b : build) (file : option text) : res params :=
  let rd k := p_read b file (txt k) in
  let rint k := let! s := rd k in stoi s in
  let rdbl k := let! s := rd k in stod s in
  let! nt := rint "nt"%string in
  let! nx := rint "nx"%string in
  let! nl := rint "nl"%string in
  let! nm := rint "nm"%string in
  let! nlat := rint "nlat"%string in
  let! nphi := rint "nphi"%string in
  let! tss := rint "t_step_save"%string in
  let! dt := rdbl "dt"%string in
  let! cl := rdbl "compactification_length"%string in
  let! Rmax := rdbl "Rmax"%string in
  let! Rmin := rdbl "Rmin"%string in
  let! m := rdbl "black_hole_mass"%string in
  let! a := rdbl "black_hole_spin"%string in
  let! km1 := rdbl "km1"%string in
  let! k0 := rdbl "k0"%string in
  let! k1 := rdbl "k1"%string in
  let! k2 := rdbl "k2"%string in
  let! V2 := rdbl "V2"%string in
  let! V3 := rdbl "V3"%string in
  let! V4 := rdbl "V4"%string in
  let! id := rd "initial_data_type"%string in
  let! dir := rd "initial_data_direction"%string in
  let! amp := rdbl "amp"%string in
  let! rl := rdbl "rl"%string in
  let! ru := rdbl "ru"%string in
  let! l_ang := rint "l_ang"%string in
  let! m_ang := rint "m_ang"%string in
  Ok (Par (to_size nt) (to_size nx) (to_size nl) (to_size nm) (to_size nlat) (to_size nphi)
          (to_size tss) dt cl Rmax Rmin m a km1 k0 k1 k2 V2 V3 V4 id dir amp rl ru l_ang m_ang).

End Params.
Arguments params F : clear implicits.
