(** * Model of the unified test binary (instrument/instrument_go/instrument_unifiedtest/
    xgo_testunified.go, xgo_testinfo.go, instrument/instrument_runtime/instrument_testing/testing.go) *)
From Coq Require Import Ascii String List Arith Bool.
From Verif Require Import M_Str M_Coverage M_Instrument.
Import ListNotations.
Open Scope nat_scope.
Open Scope list_scope.

(** What is read of a package (load.Package): its directory, its tests, its other functions that go test
    runs (benchmarks, fuzz targets, examples), whether it has files of package x_test and a TestMain. *)
Record tpkg := { p_path : bytes; p_dir : bytes; p_tests : list bytes; p_others : list bytes; p_xtest : bool; p_main : bool }.
(** An entry of the tests of the generated main: xgoPkgTestInfo with its package. *)
Record utest := { u_name : bytes; u_pkg : tpkg; u_ref : bytes }.
(** xgo_testunified.go:56-67: packages that go test runs alone. *)
Definition mergeable (p : tpkg) : bool := negb (p_xtest p) && negb (p_main p).
(** 152-166: names made distinct; [dup] is dupName. *)
Definition bump (dup : bytes -> nat) (n : bytes) : bytes -> nat := fun x => if eqs x n then S (dup x) else dup x.
Fixpoint uniq_names (l : list (tpkg * bytes)) (dup : bytes -> nat) : list utest :=
  match l with
  | [] => []
  | (p, n) :: r =>
      let j := dup n in
      {| u_name := if 0 <? j then n ++ #"_" ++ itoa j else n; u_pkg := p; u_ref := n |} :: uniq_names r (bump dup n)
  end.
(** 31-191 xgoUnifyTestPackages with XGO_UNIFIEDTEST=true: the packages as they are (113), or the tests
    of the unified package and the packages that stay alone. *)
Inductive plan := Separate (pkgs : list tpkg) | Unified (tests : list utest) (extra : list tpkg).
Definition unify (pkgs : list tpkg) : plan :=
  let ps := filter mergeable pkgs in
  if length ps <=? 1 then Separate pkgs
  else Unified (uniq_names (flat_map (fun p => map (pair p) (p_tests p)) ps) (fun _ => 0)) (filter (fun p => negb (mergeable p)) pkgs).
(** 168-173 xgoTestInfoMapping: a later test of the same name replaces an earlier one. *)
Fixpoint info_of (tests : list utest) (name : bytes) : option utest :=
  match tests with
  | [] => None
  | t :: r => match info_of r name with Some x => Some x | None => if eqs name (u_name t) then Some t else None end
  end.
Definition unified_package : bytes := #"github.com/xhd2015/xgo/runtime/testunified".
(** xgo_testinfo.go:41-57 xgoGetTestName. *)
Definition get_test_name (tests : list utest) (pkg name : bytes) : bytes * bytes :=
  if negb (eqs pkg unified_package) then ([], [])
  else
    let '(base, suffix) := match index name #"/" with Some i => (firstn i name, skipn i name) | None => (name, []) end in
    match info_of tests base with Some t => (p_path (u_pkg t), u_ref t ++ suffix) | None => ([], name) end.
(** test2json.go:42-53: the package and test of an event with -json. *)
Definition event_of (tests : list utest) (pkg name : bytes) : bytes * bytes :=
  match name with
  | [] => (pkg, name)
  | _ => let '(tp, tn) := get_test_name tests pkg name in (match tp with [] => pkg | _ => tp end, match tn with [] => name | _ => tn end)
  end.
(** xgo_testunified.go:217-232: the pairs of the map literal XgoTestNameToDir. *)
Definition dir_pairs (tests : list utest) : list (bytes * bytes) :=
  flat_map (fun t => match info_of tests (u_name t) with
                     | Some i => match p_dir (u_pkg i) with [] => [] | d => [(u_name t, d)] end
                     | None => []
                     end) tests.
(** The Go compiler refuses a map literal with equal constant keys. *)
Fixpoint distinct (l : list bytes) : bool := match l with [] => true | x :: r => negb (existsb (eqs x) r) && distinct r end.
Definition compiles (tests : list utest) : bool := distinct (map fst (dir_pairs tests)).
Fixpoint dir_of (pairs : list (bytes * bytes)) (name : bytes) : bytes :=
  match pairs with [] => [] | (n, d) :: r => if eqs name n then d else dir_of r name end.
(** testing.go:36-51, in testing.runTests: before each test the process changes to the directory of
    its name; then t.Run runs it if the flag -run selects its name.  A test that calls t.Parallel is
    resumed when all tests have been started. [runs]: each test that runs with its directory. *)
Fixpoint start_tests (pairs : list (bytes * bytes)) (keep : bytes -> bool) (par : utest -> bool) (tests : list utest) (cwd : bytes) : list (utest * bytes) * list utest * bytes :=
  match tests with
  | [] => ([], [], cwd)
  | t :: r =>
      let cwd := match dir_of pairs (u_name t) with [] => cwd | d => d end in
      let '(ran, waiting, last) := start_tests pairs keep par r cwd in
      if negb (keep (u_name t)) then (ran, waiting, last)
      else if par t then (ran, t :: waiting, last)
      else ((t, cwd) :: ran, waiting, last)
  end.
Definition run_tests (tests : list utest) (keep : bytes -> bool) (par : utest -> bool) (cwd : bytes) : list (utest * bytes) :=
  let '(ran, waiting, last) := start_tests (dir_pairs tests) keep par tests cwd in
  ran ++ map (fun t => (t, last)) waiting.
