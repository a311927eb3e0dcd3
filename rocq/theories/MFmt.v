(** * Model of the library calls that turn doubles into text and back.
    Printing: "out << std::setprecision(16) << x" with the stream's default float field (io.cpp:33, 72, 74-76, 114,
    116-118, 160-178), which the C++ standard defines as printf's "%.16g" (C17 7.21.6.1p8); the conversion is
    correctly rounded (glibc).  The sign glibc prints in front of a negative NaN is not modelled.
    Reading: std::stod (params.cpp:19-52), that is strtod, which throws if nothing can be converted or the result is
    out of range; the conversion is correctly rounded (glibc).  Hexadecimal texts are left to a parameter. *)
From Coq Require Import Ascii String SpecFloat.
From Verif Require Import Base Arith MParams MIo.
Local Open Scope Z_scope.

(** the integer nearest to a/b (b > 0), the even one on a tie *)
Definition zrne (a b : Z) : Z :=
  let q := a / b in
  match 2 * (a mod b) ?= b with
  | Lt => q
  | Gt => q + 1
  | Eq => if Z.even q then q else q + 1
  end.
(** n/d * 10^k, rounded *)
Definition scale (n d k : Z) : Z := zrne (n * 10 ^ Z.max k 0) (d * 10 ^ Z.max (- k) 0).
(** number of decimal digits; [fuel] only bounds recursion *)
Fixpoint ndig_fuel (fuel : nat) (n : Z) : Z :=
  match fuel with
  | O => 1
  | S k => if n <? 10 then 1 else 1 + ndig_fuel k (n / 10)
  end.
Definition ndig (n : Z) : Z := ndig_fuel (S (Z.to_nat (Z.log2 n))) n.
(** the exponent X with 10^X <= n/d < 10^(X+1) *)
Definition decade (n d : Z) : Z :=
  let k := ndig n - ndig d in
  if d * 10 ^ Z.max k 0 <=? n * 10 ^ Z.max (- k) 0 then k else k - 1.
(** sixteen significant digits of n/d, as an integer, and the decimal exponent of the first of them *)
Definition sig16 (n d : Z) : Z * Z :=
  let X := decade n d in
  let q := scale n d (15 - X) in
  if q =? 10 ^ 16 then (10 ^ 15, X + 1) else (q, X).

(** the k lowest decimal digits of q, most significant first *)
Definition digit_char (d : Z) : ascii := ascii_of_nat (48 + Z.to_nat d).
Fixpoint digs (k : nat) (q : Z) : text :=
  match k with
  | O => []
  | S k' => digit_char ((q / 10 ^ Z.of_nat k') mod 10) :: digs k' q
  end.
(** without trailing zeros *)
Fixpoint strip0 (t : text) : text :=
  match t with
  | [] => []
  | c :: t' => match strip0 t' with
               | [] => if Ascii.eqb c "0"%char then [] else [c]
               | r => c :: r
               end
  end.
(** decimal point and fraction, dropped if nothing is left of the fraction *)
Definition frac (t : text) : text := match strip0 t with [] => [] | f => "."%char :: f end.
(** the exponent has a sign and at least two digits *)
Definition expo (X : Z) : text :=
  "e"%char :: (if X <? 0 then "-"%char else "+"%char) ::
  (if Z.abs X <? 100 then digs 2 (Z.abs X) else digs 3 (Z.abs X)).
(** %g: exponent style if X < -4 or X >= 16, else fixed style *)
Definition layout (q X : Z) : text :=
  let ds := digs 16 q in
  if (X <? -4) || (16 <=? X) then firstn 1 ds ++ frac (skipn 1 ds) ++ expo X
  else if X <? 0 then txt "0" ++ frac (repeat "0"%char (Z.to_nat (- X - 1)) ++ ds)
  else firstn (Z.to_nat (X + 1)) ds ++ frac (skipn (Z.to_nat (X + 1)) ds).
Definition sgn_txt (s : bool) : text := if s then txt "-" else [].
Definition fmt16 (x : spec_float) : text :=
  match x with
  | S754_zero s => sgn_txt s ++ txt "0"
  | S754_infinity s => sgn_txt s ++ txt "inf"
  | S754_nan => txt "nan"
  | S754_finite s m e =>
      sgn_txt s ++ let '(q, X) := sig16 (Zpos m * 2 ^ Z.max e 0) (2 ^ Z.max (- e) 0) in layout q X
  end.

(** ** strtod *)
(** the digits at the front and the rest *)
Fixpoint span_digits (s : text) : text * text :=
  match s with
  | c :: s' => match digit c with
               | Some _ => let '(a, r) := span_digits s' in (c :: a, r)
               | None => ([], s)
               end
  | [] => ([], [])
  end.
Definition is_ch (c : ascii) (lo up : ascii) : bool := Ascii.eqb c lo || Ascii.eqb c up.
(** an exponent: e or E, an optional sign, at least one digit; without the digits it is not an exponent *)
Definition scan_expo (s : text) : Z :=
  match s with
  | c :: s1 => if is_ch c "e" "E" then
      let '(k, s2) := match s1 with
                      | c1 :: s' => if Ascii.eqb c1 "-" then (-1, s') else if Ascii.eqb c1 "+" then (1, s') else (1, s1)
                      | [] => (1, s1)
                      end in
      match fst (span_digits s2) with [] => 0 | ds => k * digits 0 ds end
    else 0
  | [] => 0
  end.
(** digits with an optional point, at least one digit, and an exponent: the number n 10^k *)
Definition scan_dec (s : text) : option (Z * Z) :=
  let '(a, r) := span_digits s in
  let '(f, r') := match r with
                  | c :: r1 => if Ascii.eqb c "." then span_digits r1 else ([], r)
                  | [] => ([], r)
                  end in
  match a ++ f with
  | [] => None
  | ds => Some (digits 0 ds, scan_expo r' - Z.of_nat (length f))
  end.
(** (-1)^s n 10^k, correctly rounded; [None]: strtod reports ERANGE, that is the result overflows, or it is below
    the normal range and not exact (glibc; on the edge of the normal range, a value that rounds up to 2^-1022 is
    taken as in range). *)
Definition sf_round (s : bool) (n d : positive) : spec_float :=
  let '(mz, ez, lz) := SFdiv_core_binary 53 1024 (Zpos n) 0 (Zpos d) 0 in
  binary_round_aux 53 1024 s mz ez lz.
Definition in_range (r : spec_float) (n d : Z) : bool :=
  match r with
  | S754_finite _ m e => (2 ^ 52 <=? Zpos m) || (Zpos m * 2 ^ Z.max e 0 * d =? n * 2 ^ Z.max (- e) 0)
  | _ => false
  end.
Definition dec_double (s : bool) (n k : Z) : option spec_float :=
  match n * 10 ^ Z.max k 0, 10 ^ Z.max (- k) 0 with
  | Zpos a, Zpos b => let r := sf_round s a b in if in_range r (Zpos a) (Zpos b) then Some r else None
  | _, _ => Some (S754_zero s)
  end.
(** does the text start with this word, letter case ignored (the word is given in lower case)? *)
Definition lower (c : ascii) : ascii :=
  let n := nat_of_ascii c in if (Nat.leb 65 n && Nat.leb n 90)%bool then ascii_of_nat (n + 32) else c.
Fixpoint starts (w s : text) : bool :=
  match w, s with
  | [], _ => true
  | c :: w', x :: s' => Ascii.eqb (lower x) c && starts w' s'
  | _, [] => false
  end.
Section Stod.
(** hexadecimal floating constants, whose texts start with 0x *)
Variable hex : bool -> text -> option spec_float.
Definition unsigned_double (sg : bool) (s : text) : option spec_float :=
  if starts (txt "inf") s then Some (S754_infinity sg)
  else if starts (txt "nan") s then Some S754_nan
  else if starts (txt "0x") s then hex sg s
  else match scan_dec s with Some (n, k) => dec_double sg n k | None => None end.
(** std::stod; [None]: it throws *)
Definition stod64 (s : text) : option spec_float :=
  match skip_ws s with
  | c :: s' => if Ascii.eqb c "-"%char then unsigned_double true s'
               else if Ascii.eqb c "+"%char then unsigned_double false s'
               else unsigned_double false (c :: s')
  | [] => None
  end.
End Stod.
