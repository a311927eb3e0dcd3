(** * Model of the build: Source/Makefile, Test/Makefile, the [%.run] and clean targets of the top-level Makefile, config.py and
    Sim.then_recompile.

    make is modelled by its rule "remake a file when it is missing or older than a prerequisite".  Two things are left
    open: which of the object files survive an invocation (make deletes those it takes for intermediate files; which
    ones these are differs between versions), and the contents of source files, which may be edited at any time.
    Simplifications: the objects that Test/Makefile makes of the files in Test are left out; time stamps are strictly increasing, compilation and linking succeed, the profile option (it only
    selects -pg or -g) is left out. *)
From Coq Require Import List Bool String Ascii Arith.
From Verif Require Import Base MParams.
Import ListNotations.
Local Open Scope nat_scope.

(** the make variables whose value is "true" or anything else *)
Record mkvars := Vars { v_debug : bool; v_cheb : bool; v_contig : bool; v_hyper : bool }.
(** the -D options, Source/Makefile:18-38 *)
Record macros := Mac { d_cheb : bool; d_contig : bool; d_ndebug : bool }.
Definition macros_of (v : mkvars) : macros := Mac (v_cheb v) (v_contig v || v_hyper v) (negb (v_debug v)).
(** BIN_NAME, Source/Makefile:24-29 *)
Definition bin_name (v : mkvars) : text := if v_cheb v then txt "default_cheb.run" else txt "default_fd.run".

(** OBJ and DEPS, Source/Makefile:42-65; a name listed twice counts once in $^ *)
Definition units : list text := map txt
  ["params"; "cheb"; "finite_diff"; "sphere"; "grid"; "io"; "field"; "initial_data"; "scalar_eom"; "main"]%string.
Definition headers : list text := map txt
  ["params.hpp"; "cheb.hpp"; "finite_diff.hpp"; "sphere.hpp"; "grid.hpp"; "io.hpp"; "field.hpp"; "initial_data.hpp"; "scalar_eom.hpp"]%string.
Definition source (u : text) : text := u ++ txt ".cpp".
(** prerequisites of u.o, Source/Makefile:70 *)
Definition prereqs (u : text) : list text := source u :: headers.

(** the #include "..." lines of the sources (those of a header are the same wherever it is included from) *)
Definition include_lines : list (text * list text) := map (fun '(f, l) => (txt f, map txt l))
  [ ("params.cpp", ["params.hpp"]);                                     (* params.cpp:8 *)
    ("cheb.cpp", ["cheb.hpp"]);                                         (* cheb.cpp:5 *)
    ("finite_diff.cpp", ["finite_diff.hpp"]);                           (* finite_diff.cpp:5 *)
    ("sphere.cpp", ["sphere.hpp"]);                                     (* sphere.cpp:2 *)
    ("grid.cpp", ["grid.hpp"]);                                         (* grid.cpp:4 *)
    ("grid.hpp", ["cheb.hpp"; "finite_diff.hpp"; "sphere.hpp"]);        (* grid.hpp:11-13 *)
    ("io.cpp", ["io.hpp"; "grid.hpp"]);                                 (* io.cpp:6-7 *)
    ("io.hpp", ["grid.hpp"]);                                           (* io.hpp:10 *)
    ("field.cpp", ["field.hpp"]);                                       (* field.cpp:1 *)
    ("initial_data.cpp", ["initial_data.hpp"]);                         (* initial_data.cpp:4 *)
    ("initial_data.hpp", ["grid.hpp"; "params.hpp"]);                   (* initial_data.hpp:10-11 *)
    ("scalar_eom.cpp", ["scalar_eom.hpp"]);                             (* scalar_eom.cpp:5 *)
    ("scalar_eom.hpp", ["grid.hpp"; "params.hpp"; "field.hpp"]);        (* scalar_eom.hpp:9-11 *)
    ("main.cpp", ["params.hpp"; "grid.hpp"; "field.hpp"; "initial_data.hpp"; "scalar_eom.hpp"; "io.hpp"]) (* main.cpp:7-12 *)
  ]%string.
Definition includes (f : text) : list text :=
  match find (fun x => text_eqb (fst x) f) include_lines with Some (_, l) => l | None => [] end.
(** what the compiler reads: the source, what it includes, what that includes, and so on *)
Fixpoint reach (depth : nat) (f : text) : list text :=
  f :: match depth with O => [] | S d => flat_map (reach d) (includes f) end.
Definition reads (u : text) : list text := reach 3 (source u).
(** an object file: the unit, the options it was compiled with and the text of every file the compiler read *)
Record object := Obj { o_unit : text; o_flags : macros; o_seen : list text }.
Record tree := Tree {
  t_now : nat;
  t_file : text -> text; t_mtime : text -> nat;
  t_obj : text -> option (object * nat);
  t_exe : text -> option (list object) }.

Definition older (t : tree) (u : text) (time : nat) : bool := existsb (fun p => time <? t_mtime t p) (prereqs u).
(** the object of u after its rule has run with options m *)
Definition remake (t : tree) (m : macros) (u : text) : object * nat :=
  match t_obj t u with
  | Some (o, time) => if older t u time then (Obj u m (map (t_file t) (reads u)), t_now t) else (o, time)
  | None => (Obj u m (map (t_file t) (reads u)), t_now t)
  end.

(** Test/Makefile:15-24: the units that the test program shares, compiled into Source with these options *)
Definition test_units : list text := map txt ["finite_diff"; "cheb"; "sphere"; "grid"]%string.
Definition test_macros : macros := Mac true true false.
(** Test/Makefile:36: %.o: %.cpp, no headers *)
Definition remake_test (t : tree) (u : text) : object * nat :=
  match t_obj t u with
  | Some (o, time) => if time <? t_mtime t (source u) then (Obj u test_macros (map (t_file t) (reads u)), t_now t) else (o, time)
  | None => (Obj u test_macros (map (t_file t) (reads u)), t_now t)
  end.

Inductive event :=
| Edit (file : text) (content : text)
| Make (v : mkvars) (goal : text) (keep : text -> bool)   (* Source/Makefile:67-71; keep: objects that survive *)
| MakeTest (keep : text -> bool)                           (* Makefile:7-8, Test/Makefile:26-37 *)
| CleanSource                                             (* Source/Makefile:75-76 *)
| CleanBin.                                               (* Bin/Makefile *)

(** one event.  The executable is always linked: Source/Makefile writes it to ../Bin, so the target itself never exists *)
Definition step (t : tree) (e : event) : tree :=
  let now := S (t_now t) in
  match e with
  | Edit p s => Tree now (fun q => if text_eqb q p then s else t_file t q) (fun q => if text_eqb q p then now else t_mtime t q) (t_obj t) (t_exe t)
  | Make v goal keep =>
      let t := Tree now (t_file t) (t_mtime t) (t_obj t) (t_exe t) in
      let new := remake t (macros_of v) in
      Tree now (t_file t) (t_mtime t)
        (fun u => if existsb (text_eqb u) units then if keep u then Some (new u) else None else t_obj t u)
        (fun q => if text_eqb q goal then Some (map (fun u => fst (new u)) units) else t_exe t q)
  | MakeTest keep =>
      let t := Tree now (t_file t) (t_mtime t) (t_obj t) (t_exe t) in
      Tree now (t_file t) (t_mtime t)
        (fun u => if existsb (text_eqb u) test_units then if keep u then Some (remake_test t u) else None else t_obj t u)
        (fun q => if text_eqb q (txt "test.run") then Some (map (fun u => fst (remake_test t u)) test_units) else t_exe t q)
  | CleanSource => Tree now (t_file t) (t_mtime t) (fun _ => None) (t_exe t)
  | CleanBin => Tree now (t_file t) (t_mtime t) (t_obj t) (fun _ => None)
  end.
Definition happens (t : tree) (evs : list event) : tree := fold_left step evs t.
(** a checkout: source files of any content, nothing built *)
Definition checkout (files : text -> text) : tree := Tree 0 files (fun _ => 0) (fun _ => None) (fun _ => None).

(** config.py:19-33; debug is the text given with -d, here whether it is "true".  [k1], [k2]: what survives *)
Definition config (debug : bool) (k1 k2 : text -> bool) : list event :=
  [ Make (Vars debug true true false) (bin_name (Vars debug true true false)) k1;
    Make (Vars debug false true false) (bin_name (Vars debug false true false)) k2 ].
(** sim_class.py:147-149: the top-level Makefile passes every target ending in .run to Source/Makefile, and neither
    command sets a variable *)
Definition recompile (bin : text) (k1 k2 : text -> bool) : list event :=
  [ Make (Vars false false false false) (txt "clean_obj" ++ bin) k1;
    Make (Vars false false false false) bin k2 ].

(** the build configuration of an executable, when all its objects agree on it *)
Definition macros_eqb (a b : macros) : bool := Bool.eqb (d_cheb a) (d_cheb b) && Bool.eqb (d_contig a) (d_contig b) && Bool.eqb (d_ndebug a) (d_ndebug b).
Definition build_of (os : list object) : option build :=
  match os with
  | [] => None
  | o :: r => if forallb (fun q => macros_eqb (o_flags q) (o_flags o)) r
              then Some (Build (d_cheb (o_flags o)) (d_contig (o_flags o)) (d_ndebug (o_flags o))) else None
  end.
(** the macros that the preprocessed text of a unit tests (#if USE_CHEB, #if SHTNS_CONTIGUOUS_LONGITUDES, assert), read off
    the sources: field.cpp none; params.cpp, cheb.cpp, finite_diff.cpp assert; sphere.cpp also the layout; the
    others include grid.hpp, which tests all three *)
Definition tested (u : text) (m : macros) : macros :=
  if text_eqb u (txt "field") then Mac false false false
  else if existsb (text_eqb u) (map txt ["params"; "cheb"; "finite_diff"]%string) then Mac false false (d_ndebug m)
  else if text_eqb u (txt "sphere") then Mac false (d_contig m) (d_ndebug m)
  else m.
