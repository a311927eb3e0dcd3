(** * Outcomes, vectors, loops: the small imperative vocabulary of the model.
    Models the C++ features the sources in /repo/Source rely on; no repo function lives here. *)
From Coq Require Export List Arith ZArith Lia Bool.
Export ListNotations.

(** Outcome of running a piece of the program.
    [UB]     : undefined behaviour (out-of-range [std::vector::operator[]], integer division by 0,
               executing a null FFTW plan, ...).
    [Abort]  : a failed [assert] in a build without -DNDEBUG (Source/Makefile:18-22).
    [Throw]  : an escaping C++ exception (std::stoi / std::stod on bad input).
    [Exit c] : process termination with status c (Source/params.cpp:86 std::quick_exit). *)
Inductive res (A : Type) : Type :=
| Ok (a : A) | UB | Abort | Throw | Exit (code : Z).
Arguments Ok {A} a. Arguments UB {A}. Arguments Abort {A}. Arguments Throw {A}.
Arguments Exit {A} code.

Definition bind {A B} (m : res A) (k : A -> res B) : res B :=
  match m with Ok a => k a | UB => UB | Abort => Abort | Throw => Throw | Exit c => Exit c end.
Notation "'let!' x ':=' m 'in' k" := (bind m (fun x => k))
  (at level 200, x pattern, m at level 100, k at level 200, right associativity).

(** Build flags chosen by Source/Makefile:18-37 and config.py. *)
Record build := Build {
  use_cheb   : bool;   (* -DUSE_CHEB: Chebyshev radial derivatives, otherwise finite differences *)
  contiguous : bool;   (* -DSHTNS_CONTIGUOUS_LONGITUDES: theta is the fastest index *)
  ndebug     : bool    (* -DNDEBUG: asserts are compiled out *)
}.

(** C [assert(c)]. *)
Definition assert_ (b : build) (c : bool) : res unit :=
  if ndebug b then Ok tt else if c then Ok tt else Abort.

(** size_t subtraction (modulo 2^64). *)
Definition wsub (a b : nat) : nat :=
  if b <=? a then a - b else Z.to_nat (2 ^ 64 + Z.of_nat a - Z.of_nat b).

(** [v[i]] as an rvalue and as an assignment target, checked. *)
Definition vget {A} (v : list A) (i : nat) : res A :=
  match nth_error v i with Some x => Ok x | None => UB end.
Fixpoint upd {A} (v : list A) (i : nat) (x : A) : list A :=
  match v, i with
  | [], _ => []
  | _ :: v', O => x :: v'
  | y :: v', S i' => y :: upd v' i' x
  end.
Definition vset {A} (v : list A) (i : nat) (x : A) : res (list A) :=
  if i <? length v then Ok (upd v i x) else UB.
Notation "v .[ i ]" := (vget v i) (at level 2, left associativity, format "v .[ i ]").
Notation "v .[ i <- x ]" := (vset v i x) (at level 2, left associativity).

(** [std::vector<T> v(n, x)] *)
Definition vec {A} (n : nat) (x : A) : list A := repeat x n.

(** [for (size_t i=lo; i<hi; i++) body], the loop state threaded explicitly. *)
Fixpoint loop {S} (count i : nat) (body : nat -> S -> res S) (s : S) : res S :=
  match count with
  | O => Ok s
  | Datatypes.S c => let! s' := body i s in loop c (Datatypes.S i) body s'
  end.
Definition for_ {S} (lo hi : nat) (body : nat -> S -> res S) (s : S) : res S :=
  loop (hi - lo) lo body s.

(** [for (size_t i=hi; i>=lo; i--) body] for lo >= 1. *)
Fixpoint loop_down {S} (count i : nat) (body : nat -> S -> res S) (s : S) : res S :=
  match count with
  | O => Ok s
  | Datatypes.S c => let! s' := body i s in loop_down c (i - 1) body s'
  end.
Definition for_down {S} (hi lo : nat) (body : nat -> S -> res S) (s : S) : res S :=
  loop_down (hi + 1 - lo) hi body s.

(** size_t -> size_t arithmetic used where signed and unsigned operands are mixed. *)
Definition u64 (z : Z) : Z := (z mod 2 ^ 64)%Z.
(** conversion of a size_t to int (two's complement, as on every supported compiler). *)
Definition i32 (z : Z) : Z := ((z + 2 ^ 31) mod 2 ^ 32 - 2 ^ 31)%Z.
