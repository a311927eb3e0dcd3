(** * Model of the array-valued parameters: Params::_read_array, Source/params.cpp:89-148.
    (Private and at this commit without callers; the launcher writes list-valued attributes for them.) *)
From Coq Require Import Ascii String.
From Verif Require Import Base Arith MParams.

(** The digits at the front of a text: their value and what follows them. *)
Fixpoint digit_run (acc : Z) (s : text) : Z * text :=
  match s with
  | [] => (acc, [])
  | c :: s' => match digit c with Some d => digit_run (10 * acc + d)%Z s' | None => (acc, s) end
  end.
(** "stream >> size_t" (std::num_get for unsigned long): skip white space, optional sign, digits; fails without digits
    or if the magnitude does not fit into 64 bits; a minus sign negates modulo 2^64.  Result: the value and
    the text left in the stream.  (What a failed extraction leaves behind is not modelled: nothing reads it.) *)
Definition get_size (s : text) : option (Z * text) :=
  let unsigned (k : Z) s := match s with
                    | c :: _ => match digit c with
                                | Some _ => let '(v, r) := digit_run 0 s in
                                            if (v <? 2 ^ 64)%Z then Some (u64 (k * v), r) else None
                                | None => None
                                end
                    | [] => None
                    end in
  match skip_ws s with
  | c :: s' => if Ascii.eqb c "-"%char then unsigned (-1)%Z s'
               else if Ascii.eqb c "+"%char then unsigned 1%Z s'
               else unsigned 1%Z (c :: s')
  | [] => None
  end.

Section Array.
Context {T : Type}.
(** "stream >> val" *)
Variable get : text -> option (T * text).
(** params.cpp:108-111 and 139-142: while (linestream >> val) arr.push_back(val).  [fuel] only bounds recursion:
    every successful extraction consumes at least one character. *)
Fixpoint drain (fuel : nat) (arr : list T) (s : text) : list T :=
  match fuel with
  | O => arr
  | S k => match get s with Some (v, r) => drain k (arr ++ [v]) r | None => arr end
  end.
(** params.cpp:99-117 and 130-148, the loop over lines *)
Fixpoint read_array_lines (ls : list text) (key : text) (arr : list T) : res (list T) :=
  match ls with
  | [] => Exit 0                                    (* 115-116, 146-147: std::quick_exit(0) *)
  | l :: ls' =>
      let '(name, rest) := cut sp_char l in         (* 102-103, 133-134 *)
      if text_eqb name key
      then Ok (match rest with Some r => drain (S (length r)) arr r | None => arr end)
      else read_array_lines ls' key arr
  end.
(** params.cpp:89-98, 120-129; the result is the new content of arr *)
Definition p_read_array (b : build) (file : option text) (key : text) (arr : list T) : res (list T) :=
  match file with
  | None => if ndebug b then Exit 0 else Abort
  | Some s => read_array_lines (lines s) key arr
  end.
End Array.
(** the overload for std::vector<size_t> *)
Definition read_array_size := p_read_array get_size.
(** the overload for std::vector<double>: the extraction of a double is a parameter of the model *)
Definition read_array_double {F : Type} (get_double : text -> option (F * text)) := p_read_array get_double.
