# A Rocq (Coq 8.16.1) model of xhd2015/xgo

## Method
* `rocq/theories/M_*.v`: executable Gallina models of the Go code, one file per area. Every
  definition cites the file and lines it models and says where it simplifies.
* `S_*.v`: specifications that do not mention the model's helpers (histories, call trees,
  grammars, denotations), where they are too large to sit beside the theorem.
* `P_*.v`: lemmas. `T_*.v`: the theorems `Cnn_...`, each followed by `Print Assumptions`
  and an `Example` with a concrete non-trivial case that meets its hypotheses.
* Nondeterminism (goroutine interleavings, Go map iteration, the order in which references
  are visited, user handlers, parsers passed as arguments) is universally quantified.
* Where the code as it is violates the English property, the full statement is refuted by a
  theorem `..._refuted` with a concrete witness, and the part that holds is proved as
  `..._partial`; the note in MANIFEST.json says what separates the two.
* Seeded bugs: `seeded/LOG.jsonl` records every edited definition, the claim the edit breaks,
  the theorems that failed and those tightened afterwards. Edits are made in a scratch copy
  and every theorem file is recompiled.

## Trusted base
* Coq's kernel (8.16.1), including its virtual machine (`vm_compute` is used in examples
  and in some refutations).
* `Print Assumptions` reports "Closed under the global context" for every theorem: no
  axioms, not even the standard library's. No axioms, parameters, admitted proofs, functors
  or module types are declared; no kernel check is switched off.
  (coqchk lists axioms of the libraries that are merely loaded; none is used.)
* That the models correspond to the Go code: done by reading; the Go code is not run. The
  places where the model is more abstract are in the next section.

## What is modelled
| area | code in /repo | model |
|---|---|---|
| registry of mocks, recorders, interceptors; goroutine inheritance | runtime/internal/trap/{mock,record,interceptor,stack_data,init}.go, runtime/internal/stack/g.go, runtime/internal/runtime/{g.go,xgo_trap_template.go} | M_Registry |
| dispatch of one call or variable read | runtime/internal/trap/{trap,var,inspect}.go, instrument/instrument_func/func_template.go | M_Dispatch |
| dispatch with re-entrant handlers, panics, defers, tracing | trap.go, runtime/trace/trace.go, runtime/internal/stack/stack.go | M_Interp |
| range loops over aliased slices | stack_data.go, trap.go, record.go, interceptor.go | M_Slice |
| trace stacks, snapshots, export | runtime/internal/stack/{stack,export}.go | M_Stack |
| handlers built by reflection: types, cells, results, errors | runtime/internal/trap/{build,object,mock,record,var,interceptor}.go | M_Build |
| function table, names | runtime/functab/functab.go, runtime/core/func.go | M_Functab, M_FuncName |
| goroutine-local storage | runtime/tls | M_Tls |
| source edits | support/edit/edit.go | M_Edit |
| instrumentation of functions, variables, registration, coverage notes, cache sum, choice of packages and functions | instrument/{instrument_func,instrument_var,instrument_reg,compiler_extra,config,ast,patch/init.go}, cmd/xgo/instrument.go, instrument/instrument_go | M_Instrument |
| scopes and references | instrument/resolve | M_Scope |
| overlay | instrument/overlay | M_Overlay |
| marked patches | instrument/patch, support/strutil | M_Patch |
| line patches | support/transform/{patch,edit/line} | M_LinePatch |
| glob patterns | support/pattern | M_Pattern |
| versions | support/goinfo/{version,semver}.go | M_Version |
| command line, the go command, XGO_FLAGS | cmd/xgo/{option,main}.go, support/flag | M_Options |
| mock rules | cmd/xgo/{rule,instrument}.go, patch/legacy/match | M_Rules |
| setup of GOROOT | cmd/xgo/{main,patch}.go, support/filecopy | M_Setup |
| file copy | support/filecopy/copy.go | M_Copy, M_CopyTree |
| modules and go.mod | support/goinfo/mod.go, find.go, pkg.go, cmd/xgo/main.go:281-290 | M_Module |
| vendored modules | support/goinfo/vendor_parse.go | M_Vendor |
| text edits | cmd/xgo/instrument.go:622-655, cmd/xgo/trace.go:487-516,685-711, support/cmd/quote.go | M_Text |
| unified tests | instrument/instrument_go/instrument_unifiedtest, instrument/instrument_runtime/instrument_testing | M_Unified |
| loading packages | instrument/load/load.go | M_Load |
| what mock.Patch names | instrument/resolve/*.go, instrument/resolve/types/type.go | M_Resolve |
| sessions of the test explorer | support/session/session.go | M_Session |
| test explorer: listing and selecting | cmd/xgo/test-explorer/main.go (scanTests, sort), parse.go, run.go | M_Explorer |
| test explorer: events of a run | cmd/xgo/test-explorer/run.go, run_event.go, run_session.go (pathMapping) | M_ExplorerRun |
| test explorer: goroutines of a run | cmd/xgo/test-explorer/run_session.go:295-427, 585-603 | M_ExplorerLive |
| reader of .xgo.patch files | instrument/patch/apply_parse.go, apply_types.go | M_PatchFile |
| applying a patch directory | instrument/patch/apply.go:80-235, 301-345 | M_ApplyPatches |
| Go root under git: versions, crash-safe making, logged commands | support/gitgoroot/gitgoroot.go | M_GitGoroot |
| Trace viewer: reading, old format, page, durations | cmd/xgo/trace/convert.go, cmd/xgo/trace/render/*.go | M_TraceView |
| Serving on a free port, addresses | support/netutil/netutil.go | M_Serve |
| Downloading and unpacking an SDK | support/downloadgo/*.go, cmd/xgo/upgrade/extract.go | M_Download |
| Preparing xgo/runtime: versions, flags, the local copy, repair of v1.1.0 | instrument/instrument_xgo_runtime/{parse,link,legacy}.go, cmd/xgo/{trace,instrument}.go | M_Link |
| Environments, child commands, rebuilding the tools | instrument/build/*.go, support/cmd/cmd.go | M_Env |
| Versions, modules and files of the project | support/goinfo/{goinfo,find,list}.go, support/testconfig constraint | M_GoInfo |
| test.config.json, options and commands of the explorer | support/testconfig/config.go, test-explorer/{config,run,run_session,debug,poll}.go | M_TestConfig |
| Programs for -toolexec | cmd/xgo/exec_tool/{main,option,tool_exec_main}.go | M_ToolExec |
| Runs and their pages | cmd/xgo/test-explorer/poll.go startRun, support/session/session.go | M_PollRun |
| JSON endpoints | support/netutil/http.go, handlers of cmd/xgo/test-explorer/{run_session,poll,main,open}.go | M_Http |
| Names of directories, coverage controller | cmd/xgo/pathsum/path.go, support/fileutil/path.go CleanSpecial, cmd/xgo/coverage/cov_control/cov_control.go | M_PathName |
| Types of variables | instrument/instrument_var/trap_var.go useTypeInFile, doUseTypeInFile, importRecorder | M_VarType |
| The shadowed go command | cmd/xgo/shadow/*.go (unix), cmd/xgo/main.go getNakedGo | M_Shadow |
| xgo tool | cmd/xgo/tool.go (unix) | M_Tool |
| Clock functions | instrument/instrument_runtime/time.go, instrument/patch/patch.go EditFile | M_Time |
| coverage | support/coverage, cmd/xgo/coverage | M_Coverage |

## What is not modelled
* The Go compiler, linker, `go build -overlay`, go/parser and go/ast: syntax trees are
  given as records of what the code reads from them, at valid positions.
* unsafe, linkname and assembly: a goroutine is a slot with the fields the code stores in g.
* reflect beyond the kinds needed by build.go: types are a finite syntax with equality.
* The memory model: shared state is accessed under the mutexes the code takes; every
  interleaving of the critical sections is covered, torn reads are not.
* Wall-clock times, durations and goroutine ids other than as opaque numbers.
* Output of the command line tools, network, git, the IDE plugins, the test explorer and the
  trace viewer (cmd/xgo/{test-explorer,trace}); downloading Go (setting up the
  patched GOROOT is modelled file by file in M_Setup, without the contents of the patches).
* Strings are lists of bytes; unicode classes are modelled for ASCII; strconv.Quote is
  modelled up to escaping of control characters. Machine integers are unbounded except where
  a theorem says so (coverage counts).

## Findings (theorems `..._refuted`, or remarks proved on the way)
* Runtime: instance-bound recorders lose their binding in child goroutines; recorders share
  one loop variable (go 1.14 module), so two posts run the last one twice; a self-cancelling
  recorder makes its neighbour be skipped; PatchMethodByName always panics on the right
  types; variadic functions accept non-variadic replacements; the pre/post test of variable
  recorders is inverted; MockByName("*v") drops the interceptor's error; Trace's end drops
  all registrations of the goroutine; Trace without a sink does not end; a panicking mock
  leaves its trace entry open; go markers share ID 0; interface methods are looked up by
  interface name only; function names with nested type arguments or dotted packages parse
  wrongly.
* Overlay and coverage: canonical overlay depends on map order for aliases; generated files
  of /PROJECT/... and project files can clash; Merge(a, a) with one slice miscounts; a second
  mode line becomes a block; CRLF or overflowing counts read as 0.
* Patterns: "a*" never matches "ab"; "a*b", "a/*/b" and "a/*" match "a"; prefix mode accepts
  elements that merely begin with the pattern's.
* Patches: replaced text holding "*/" is cut; unnamed blocks are not idempotent; one block
  can move another's anchor; edits before any place are dropped; insert_after before a later
  insert_before goes to the wrong side; an edit that changes nothing leaves the old patch.
* Line patches: Unpatch leaves an empty line per region; parse errors of instructions are
  dropped; equal patch statements match the same source statement.
* Instrumentation: quotas of 16 functions per file and 96 per package drop mocked functions;
  the cache sum has no separators; multi-line variable types shift lines; T_ accessors clash;
  names of type parameters and of `case v := <-ch` are taken for package variables; reads in
  case lists, communication clauses, slice maxima and index expressions of assignments are
  not rewritten.
* Command line: a foreign flag without "=" takes the program of run and exec along; values
  that begin with a dash are read as flags; bad values of --strace and --unified panic; test
  -o without -c is dropped; run --debug takes the first go flag for the package; --cover and
  -cover in XGO_FLAGS go unnoticed; unlisted flags without values hide the package.
* Rules: an exclude rule for one name of the main module keeps the whole module from being
  instrumented; the order of rules is ignored when packages are loaded.
* Setup: the revision file is not removed before the copy is touched: crashes while
  --reset-instrument removes the copy, while a deleted copy is made again, or in an upgrade
  that is then undone, leave a broken GOROOT in use.
* File copy: with more than one worker an error after the last file was sent is lost, and with
  it up to 10000 queued files when all workers failed (xgo itself uses one worker).
* Modules: FindGoModDirSubPath gives sub paths reversed; a go.mod in "/" is missed; from a
  subdirectory of the module with no --project-dir, .xgo/gen and vendor are looked for in the
  working directory instead of the module root; module directives with a tab, quotes or in
  block form are not read.
* Text edits: .gitignore is taken to hold the pattern when it only occurs in a comment, a
  negation or a longer pattern; the trace import is put into a comment that says "package ",
  or into a later line after a stray carriage return; words with quotes or | but no blank are
  shown unquoted.
* Unified tests: a test called like another one with _1 keeps the binary from being built;
  examples, benchmarks and fuzz targets are not run; an anchored -run misses tests renamed;
  parallel tests run in the directory of the last package.
* LoadPackages: a file that cannot be read (or is too large) is counted as done before its error
  is set; under an unlucky schedule it is returned with a nil syntax tree, which is dereferenced later.
* Resolving the argument of mock.Patch: methods of embedded fields, variables from `x, err := f()`, `var x T` and
  parameters, results of method calls, `a, b T` fields, and types over error, rune or any are not recognised (nothing is
  instrumented); `type A B` with its own methods, a parameter hiding an outer variable, and files with different imports under
  one name make the wrong function instrumented.
* A session nobody polls any more (page closed, /session/destroy) blocks its test run for good after 100 events: nothing
  closes or drains the channel.
* Running a file with tests TestA and TestB from the explorer passes `-run ^TestA|TestB$`, which also runs TestAll and
  MyTestB; running the subtest TestA/sub passes `^TestA/sub$`, which also enters TestAll. `.`, `(`, `+`, `*`, `?`, `\\`,
  `^`, `$` in names of subtests are not escaped (C83).
* The explorer lists TestMain, methods named TestXxx and functions such as Testify as test cases (C85).
* When a package does not compile, the explorer marks the package failed, but the tests asked for in it, still marked running
  at the end of the run, are then reported as passed (C86).
* A line on the output of `go test -json` that is neither JSON nor `FAIL pkg ...` makes the event builder return no event and no
  error; the explorer then dereferences nil (C88).
* The package path is cut from the module path by prefix without looking for `/`: events of `example.com/modx` are given to the
  item `x` of `example.com/mod` (C88).
* A line of output of 64K or more, or a line of `go test -json` that can not be decoded, stops the reader of stdout; go test
  then blocks on its output, the run never ends and `test_end` is never sent (C87).
* The reader of stderr is the only one to close its pipe, so it never ends (a goroutine leak per run), never delivers a last
  line without newline, and may send output after `test_end` (C87).
* Text after the command `newline` is dropped silently (`C89_dropped_text`); a `#` comment that is indented is an error
  although an indented command is not (C89).
* `substituteEnv` replaces variables one after the other in the random order of a Go map: a value that holds `${B}` is
  expanded again or not depending on that order (C91).
* A generate entry with a kind and only a `cmd_windows` does nothing at all on other systems: neither a command nor the
  handler (C91, `asks_nothing`).
* `ApplyXgoPatchFile` overwrites its target in place: if the write fails the original text is gone (C90).
- gitgoroot.EnsureGitGoroot: the removal of an incomplete Go root is not crash safe. The marker is an ordinary entry of the directory, and the removal may delete it first; a Go root whose commit exists but whose files are gone is then taken as valid (C92_returned_is_finished_refuted).
- gitgoroot.EnsureGitGoroot: killed between MkdirAll and WriteFile of the marker, it leaves an empty directory that makes every later call fail (C92_can_be_repeated_refuted).
- gitgoroot.initGitGoroot commits the marker file: it is added by "git add ." and removed from the Go root afterwards, so that worktrees have it and the Go root is never clean (C92_worktree_refuted).
- trace viewer: json.Decoder keeps a syntax error, so a trace file that is cut after its first stack makes readStacksFromReader append error stacks for ever (C95_ends_refuted).
- trace viewer: a null entry in a trace makes RenderStacks panic before the list is written; the recovered error is dropped by the handler, so an empty page is served (C97_null_hides_all_refuted). The rows of details are written before the roots are renamed (C97_detail_is_of_head_refuted).
- netutil.ServePort: the announcing goroutines read the shared variable port, and select may take the timer although the channel is closed; an attempt that fails after the timeout is announced, with the number of the next port (C99_watch_refuted). FindListenablePort can answer 65536 (C99_find_refuted).
- netutil: an IPv6 host comes out of GetHostAndIP in brackets and is put in brackets again by JoinHostPort (C100_probe_refuted).
- upgrade.ExtractTarGz writes outside its directory for a header named ../x (C101_extract_tar_gz_refuted); Upgrade itself calls tar.
- downloadgo.Download: Options.GOOS and GOARCH choose the archive but not the directory, so that a second call for another platform returns the SDK of the first (C102_platform_refuted); of two calls at once one fails on the rename although the SDK is there (C102_concurrent_refuted).
- The local copy of the runtime keeps the flags of an earlier run: after `xgo test --strace` a plain `xgo test` collects traces too (C105_flags_refuted). A run killed while it copies leaves a copy that lacks files and is taken for complete from then on, since only the number in core/version.go, one of the first files written, is compared (C105_killed_refuted, C105_killed_silent_refuted).
- support/cmd: the function Output (without a builder) drops the error of the command (C108_output_refuted); the test explorer then takes a missing `xgo` for one that supports mock rules (C108_mock_rule_refuted).
- instrument/build: with GOOS=linux on an Apple Silicon Mac and Go < 1.23 the rebuilt go and compile, which run on the Mac, are not linked externally (C109_cross_refuted).
- support/goinfo: with GOEXPERIMENT, `go version` prints ` X:...` before the system, which then becomes part of it (C110_experiment_refuted).
- support/testconfig: go.min and go.max ignore the third number (C111_patch_refuted).
- support/goinfo: FindGoModDirSubPath returns the components in reverse order, so that the explorer, two or more directories below the module root, scans another directory (C112_order_refuted).
- support/goinfo: ListRelativeFiles lists files of sibling directories whose name extends the one asked for, and external tests are never listed (C113_sibling_refuted, C113_xtest_refuted).
- support/testconfig: `"bypass_go_flags": "false"` is true (C114_bypass_refuted); `"env": {"TIMEOUT": 1000000}` sets TIMEOUT=1e+06 and null sets `<nil>` (C115_number_refuted, C115_null_refuted).
- test-explorer: `--coverage` does not override `"coverage": false` (C116_coverage_refuted); the handlers /run and /debug drop the program arguments of the configuration (C116_args_refuted).
- exec_tool: without `--` the tool is dropped and its first argument is run as a program (C117_no_dashes_refuted).
- go-tool-exec insert-trap: packages with at most three slashes in their path count as system packages even when named (C118_short_refuted); `--func` is always an error (C118_func_refuted); concurrent compilations of a directory, or of a directory and one below it, delete each other's files (C119_same_refuted, C119_parent_refuted).
- test-explorer poll.go: the pipe is never closed, so the last line of an output without a newline is lost (C121_last_line_refuted); a line of 64 KiB stops the Scanner and the command blocks for ever (C121_long_line_refuted); the end event may overtake lines (C121_end_before_line_refuted).
- netutil.HandleJSON: a handler that panics with an error (a nil pointer, an index) is answered by 200 and `null`, because line 43 assigns the wrong variable (C122_panic_refuted); so POST /session/pollStatus or /session/destroy without a body is a success (C123_no_body_refuted). The Content-Type of an error is set after the status has been written (C122_type_refuted).
- pathsum: two bytes of each component are kept, so a component that begins with a character of three bytes makes a name that is not UTF-8 (C124_cut_refuted).
- cov_control: `a b` and `a_b` share their coverage, and a directory `.!.` becomes `..` (C125_share_refuted, C125_outside_refuted); Clear does not remove result.json (C126_clear_refuted).
- instrument_var/trap_var.go: for `var a, b = f()` the accessor of `a` is given the text `(A, B)`, which does not compile (C127_pair_refuted); a type of an internal package of another module is imported although the file may not (C127_internal_refuted).
- cmd/xgo/shadow: the command is run without standard input (C128_stdin_refuted); PATH entries are compared as strings, so `/x/shadow/` makes every go command fail (C128_slash_refuted), and `/x/shadow:/x/shadow/`, or two shadows, start processes without end (C128_twice_refuted, C128_two_shadows_refuted).
- cmd/xgo/tool.go: called as `xgo`, os.Args[0] has no directory, so `xgo tool notes` looks for ./notes and, if there is such a file, runs `notes` from PATH (C129_by_name_refuted).
- instrument_runtime/time.go: cleaning runtime/time.go loses whatever follows the linkname directive on its line (C130_line_refuted).

## Per property

Each entry: what is modelled and how it is proved, the status, and what is missing or refuted. Theorem names are in MANIFEST.json.
* **C01** The mock in force for a call is the last live registration. *Model* M_Registry, S_Registry: world model (heap of stack data, goroutine slots, cancel closures) with one step per API call; history specification over the list of operations; simulation relation by induction over all operation lists. *Status* proved (1 theorems).
* **C02** Cancelling removes exactly that registration. *Model* M_Registry: same refinement; cancel closures act on one entry of the history, twice is once. *Status* proved (5 theorems).
* **C03** Registrations are isolated between goroutines. *Model* M_Registry: invariant: an operation of one goroutine leaves the slots reachable from others unchanged. *Status* proved (2 theorems).
* **C04** A new goroutine inherits a snapshot of its creator's registrations. *Model* M_Registry: what inerhitStack copies, compared field by field with the creator's tables at the go statement. *Status* partial (3 theorems). Snapshot inheritance proved for mocks, variable mocks/recorders and interceptors; refuted for instance-bound recorders, whose binding is dropped by cloneFuncRecordMapping (init.go:107-122).
* **C05** Instance-bound handlers only act on their instance. *Model* M_Registry, M_Build: receiver test of the stored handlers; binding kept in own goroutine, lost in children. *Status* partial (5 theorems). Proved for mocks in every goroutine and for recorders in the goroutine that registered them; refuted for recorders in child goroutines.
* **C06** Pre-init registrations are global and permanent. *Model* M_Registry: registrations before init go to the global table; no operation removes them. *Status* proved (5 theorems).
* **C07** Recorders and interceptors pair up. *Model* M_Dispatch, S_Dispatch: dispatch of one call over handler lists with an event log and explicit loop-variable semantics. *Status* partial (9 theorems). Refuted: with the pre-1.22 loop variable the runtime module is compiled with, two recorders break the pairing (second post runs twice, with foreign data; a nil post panics; a recorder bound to another instance disturbs), and variable posts do not run in reverse. Proved: at most one recorder and one interceptor; all handler lists under per-iteration loop variables.
* **C08** Cancelling a recorder from inside a handler does not disturb the others. *Model* M_Slice: Go slices with backing arrays; cancel shifts in place while the loop ranges. *Status* partial (4 theorems). Refuted: the range loop aliases the registration slice and cancel shifts it in place, so a self-cancelling recorder makes the next one be skipped and the last run twice. Proved when a global registration also exists and when nothing is cancelled.
* **C09** Dispatching is re-entrancy safe. *Model* M_Interp, S_Interp: big-step interpreter of instrumented programs whose handlers are programs; depth invariant by induction on evaluation. *Status* partial (3 theorems). Depth restoration proved for every program, with panics anywhere. The second half is proved when every Trace has a sink and refuted otherwise (trap.go:304 returns the post handlers unwrapped).
* **C10** The original runs exactly when nothing replaced it. *Model* M_Dispatch: stop flag of the inserted code against the specification of replacement. *Status* proved (1 theorems).
* **C11** A trace is the call tree. *Model* M_Interp, M_Stack: the trace built by pushes and pops equals the call tree of the program, by induction on evaluation. *Status* partial (7 theorems). Proved for handlers that observe without replacing or panicking and mocks that do not panic (Panic flags exact when deferred functions make no calls). Refuted outside: panicking mock or post handler leaves the entry open and nests later siblings under it; calls in deferred functions during a panic are flagged; calls made by handlers appear only if stopped.
* **C12** Trace trees stay well-formed under concurrency. *Model* M_Stack, S_Stack: heap invariant over all interleavings of goroutine actions. *Status* partial (4 theorems). Proved for every interleaving of pushes, finishes, forks, exits and exports. Refuted for a traced call whose mock panics (its entry stays unfinished) and for go marker entries (all have ID 0).
* **C13** An export taken at any time is consistent. *Model* M_Stack: Snapshot copies; later actions do not reach the copy. *Status* proved (3 theorems).
* **C14** Tracing does not disturb registrations. *Model* M_Registry: effect of trace start and end on the registration tables. *Status* partial (3 theorems). Refuted: the end of trace.Trace detaches the goroutine data (trap.go:446) and drops every registration. Proved: starting a trace changes nothing, ending one never touches other goroutines.
* **C15** Tracing ends when Trace returns. *Model* M_Registry: as C14, for tracing state. *Status* partial (4 theorems). Refuted for a configuration without OutputFile and OnFinish on a goroutine that already has data; proved when a sink is configured.
* **C16** Resolving a function never runs it. *Model* M_Build, M_Dispatch: resolution runs the body with the inspecting hook set; the trap stops it before the body. *Status* proved (1 theorems).
* **C17** Goroutine-local storage is local, and inherited only on request. *Model* M_Tls, S_Tls: refinement against a history specification for all operation lists. *Status* proved (3 theorems).
* **C18** Goroutine slot reuse leaks nothing. *Model* M_Tls: slot reuse: state of a new goroutine in a reused slot equals a fresh one. *Status* proved (2 theorems).
* **C19** No function registration is lost or duplicated. *Model* M_Functab: registration loops of the runtime and the table; counting argument. *Status* proved (3 theorems).
* **C20** Function lookup by package and name finds the registered function. *Model* M_Functab: lookup after any registration history. *Status* proved (3 theorems).
* **C21** Function names parse back into their parts. *Model* M_FuncName: parser against a grammar of runtime function names. *Status* partial (5 theorems). Proved for type arguments without nested brackets or function types and packages whose last element has no unescaped dot; refuted for each of these three.
* **C22** A correctly typed replacement is accepted and a wrongly typed one rejected. *Model* M_Build: type check against equality of signatures. *Status* partial (5 theorems). Patch by value proved; by name proved up to variadicity (refuted: a variadic function accepts a non-variadic replacement). PatchMethodByName is refuted for every input: with the right types checkFuncTypeMatch indexes past the last parameter (object.go:172) and panics.
* **C23** A variable can be recorded before and after. *Model* M_Build: acceptance of variable recorders. *Status* partial (3 theorems). Refuted: the test preIsPtr == postIsPtr (record.go:59) is inverted, so a pre and a post together are always rejected. Proved: a single handler is accepted.
* **C24** Mocking a variable changes what readers see, not the variable. *Model* M_Build: cells: reader's copy against the variable's own cell. *Status* proved (4 theorems).
* **C25** Interceptor errors surface as the function's error. *Model* M_Build: error result cell after the handler. *Status* proved (4 theorems).
* **C26** Replacements receive the real arguments and set the real results. *Model* M_Build: argument and result cells, any arity. *Status* proved (2 theorems).
* **C27** Source edits compose. *Model* M_Edit: edit queue and application against a position-by-position specification. *Status* proved (2 theorems).
* **C28** Composed overlays resolve every file once. *Model* M_Overlay: resolution function of the composed map against composition of relations. *Status* proved (3 theorems). Exact for all overlays and iteration orders, including the error path; the projected form under idempotent symlink resolution.
* **C29** Go versions compare as a total preorder. *Model* M_Version: order laws and agreement with the language's version order. *Status* proved (5 theorems).
* **C30** Merging coverage profiles adds counts. *Model* M_Coverage: count of every block key summed over all profiles. *Status* partial (7 theorems). Proved for all profiles held in separate slices and for the whole merge command, including grouping and order; refuted when one profile slice is passed to Merge twice (Merge works in place).
* **C31** Cleaning a patched file restores the original. *Model* M_Patch, S_Patch: clean after any history of marked edits. *Status* partial (4 theorems). Proved for every history of marked insertions and replacements with fresh labels, anchors outside marked regions, texts without marks and replaced text without a comment end; refuted without those conditions (same mark twice loses the original, replaced text holding */ is cut, inserted /*old:*/ comes back).
* **C32** Applying patches is idempotent. *Model* M_Patch, S_Patch: apply twice = apply once. *Status* partial (4 theorems). Proved for EditFile and for one named block whose edits are in file order, do not overlap and carry no marks (C32_apply_partial; C32_apply_one_place gives conditions on the commands alone), for every parser. Refuted: a second block can move the first one's anchor, unnamed blocks are applied over themselves, replaced text holding */ is cut, a directive that does not end its line loses the rest, edits out of file order do not clear.
* **C33** Glob patterns match what they say. *Model* M_Pattern: matcher against a denotation of patterns. *Status* partial (5 theorems). Exact matching proved for patterns whose elements are `**`, a literal, or stars followed by a literal (and `*` where the path cannot run out); refuted otherwise: "a*" does not match "ab", "a*b" and "a/*/b" match "a". Prefix mode never misses a match (proved for all), but also accepts elements that merely begin with the pattern (refuted).
* **C34** Instrumentation preserves line numbers. *Model* M_Instrument, M_Edit: line of each kept byte before and after all edits. *Status* partial (2 theorems). Proved for every file and every set of instrumented functions and variables: each surviving byte keeps its line when the texts of the variables' types are on one line and no removed & operator spans lines; refuted for multi-line types.
* **C35** Unpatching restores the source and re-patching does not pile up. *Model* M_LinePatch: unpatch after patch; patch after unpatch after patch. *Status* partial (4 theorems). Unpatching restores all source lines in order but leaves an empty line per region (C35_unpatch_partial); it therefore never restores the file exactly (C35_unpatch_refuted, for every non-empty edit). Re-patching proved equal up to empty lines for every locator that goes by the non-empty lines. Conditions: lines without marks, ids without newline, * and <.
* **C36** Only references to the package variable are rewritten. *Model* M_Scope: traversal with scopes against Go's scoping rules. *Status* partial (2 theorems). Proved for every function body unless a type parameter or `case v := <-ch` reuses the name of a package variable; refuted for those two (the local name is rewritten and the program no longer compiles). Variables of other packages (pkg.Var) are not modelled.
* **C37** Function lookup by full name finds the function of that name. *Model* M_Functab: lookup by full name over registration histories. *Status* partial (6 theorems). Exact names and generic instances proved; refuted for interface methods: interfaceMapping is keyed by interface name only, so the name of one method finds whichever method was registered last.
* **C38** An error from an interceptor that mocks a variable is not lost. *Model* M_Build: error propagation of variable interceptors. *Status* partial (2 theorems). Proved for the registration by pointer; refuted for MockByName of "*v", which drops the error (mock.go:71).
* **C39** Interceptors are given the call's own context. *Model* M_Build: context argument found by position and type. *Status* proved (1 theorems).
* **C40** Semantic versions compare by precedence. *Model* M_Version: semver precedence against the standard's definition. *Status* proved (5 theorems).
* **C41** Overlay composition does not depend on map order. *Model* M_Overlay: all iteration orders of Go maps. *Status* partial (3 theorems). Proved for the composition; the canonical map is order independent when every file named by several spellings is also named canonically; refuted otherwise (two symbolic links to one file).
* **C42** Reading through the overlay sees the last override. *Model* M_Overlay: read after any sequence of overrides. *Status* proved (1 theorems).
* **C43** Each generated file is written to its own place. *Model* M_Overlay: injectivity of the path mapping. *Status* partial (2 theorems). Proved for all sets of files that do not live under a root directory named like a mapped place (/GOROOT, /PROJECT, /GOPATH...); refuted for those.
* **C44** Coverage profiles survive writing and reading. *Model* M_Coverage: parse after format; line grammar of profiles. *Status* partial (4 theorems). Writing then reading proved for all profiles; refuted for appended profiles (second mode line becomes a block) and for counts that do not parse (CRLF, overflow: silently 0).
* **C45** Editing a file replaces its earlier patches. *Model* M_Patch: EditFile composed with itself. *Status* partial (4 theorems). Proved whenever the edit changes the original; refuted when it does not: the earlier patch stays in the file.
* **C46** Patch edits take effect at the place they name. *Model* M_Patch, S_Patch: position of the inserted text relative to the anchor named. *Status* partial (7 theorems). Proved for a block with one place and one edit. Refuted for several places: earlier insert_after lands before its anchor, edits before any place are dropped, mixed insert_before/insert_after go to one side, out-of-order places are written into each other's marks.
* **C47** Every parameter and result of an instrumented function gets a name, and the trap sees exactly those. *Model* M_Instrument: names, edits and metadata of trapped functions. *Status* proved (4 theorems).
* **C48** Every wanted function is instrumented. *Model* M_Instrument: filter of functions over all files of a package, quotas included. *Status* partial (3 theorems). Proved when everything is wanted, in the main package, or within the quotas; C48_quotas gives the exact set otherwise. Refuted beyond the quotas: the 17th mocked function of a file and the 97th of a package are not instrumented.
* **C49** Packages that must never be instrumented are left alone. *Model* M_Instrument: package path predicates. *Status* proved (3 theorems).
* **C50** A changed instrumentation recompiles the package. *Model* M_Instrument: injectivity of the hashed text. *Status* partial (2 theorems). Additions are always seen; refuted in general: the summed text has no separators, so mocking Do and It or DoIt gives the same key.
* **C51** The notes for the coverage tool survive. *Model* M_Instrument: read after write of the notes, for every encoder that round-trips. *Status* proved (1 theorems).
* **C52** Generated names do not clash. *Model* M_Instrument: injectivity of name generators. *Status* partial (6 theorems). Numbered names proved distinct for all packages; accessors of variables proved distinct unless a test variable is itself named T_TestX (refuted: TestX and T_TestX share an accessor).
* **C53** Line edits go where they belong. *Model* M_LinePatch: position of marked line edits. *Status* proved (3 theorems).
* **C54** Patch nodes are matched to source nodes in order. *Model* M_LinePatch: greedy matching against order-preserving embeddings. *Status* partial (2 theorems). Leftmost in-order matching and completeness proved for every node comparison; refuted: equal patch nodes are matched to the same source node.
* **C55** Patch instructions are read as written or reported. *Model* M_LinePatch: instruction grammar. *Status* partial (3 theorems). Well-formed instructions proved read as written; refuted: parse errors are dropped and the node is silently not patched.
* **C56** Every read of a package variable is rewritten. *Model* M_Scope: converse of C36. *Status* partial (2 theorems). Proved for the forms xgo looks at, including every shadowing by parameters, :=, var, const and type in blocks; refuted for case lists, communication clauses, names declared in if/for/switch headers, `for v := range v`, the third slice index, keys of map literals and indices inside assignment targets.
* **C57** A rewritten reference reads the variable through its accessor. *Model* M_Instrument, M_Edit: text of the file with all references rewritten, for every visiting order. *Status* proved (2 theorems).
* **C58** Command-line words mean what the usage says. *Model* M_Options: argument loop against an inductive meaning of the command line (both directions). *Status* partial (5 theorems). Exact for build, test and setup (both directions), and for run and exec as long as foreign flags are written with "="; refuted otherwise: xgo run -race main.go -v takes -v for itself, and a value starting with a dash after a foreign flag (-ldflags -v) is read as a flag. A bad value of --strace or --unified is a panic rather than an error (part of the specified meaning).
* **C59** The go command xgo runs is the one the user asked for. *Model* M_Options: assembled command against the set of flags wanted. *Status* partial (4 theorems). Exact for build, run and test; refuted: xgo test -o x without -c drops -o; xgo run --debug -race ./a builds only "-race".
* **C60** XGO_FLAGS are read as if written before the arguments. *Model* M_Options: maximal words without white space. *Status* partial (4 theorems). Words of XGO_FLAGS proved; refuted: -cover in XGO_FLAGS and --cover are not noticed.
* **C61** The packages among the arguments are found. *Model* M_Options: flag grammar of go. *Status* partial (2 theorems). Proved for flags before packages when every flag without value is on the list in the code; refuted for other such flags (-short) and for flags after packages.
* **C62** The way of patching follows the Go version. *Model* M_Options: case analysis over all versions. *Status* proved (1 theorems).
* **C63** The mock rules in force are those given. *Model* M_Rules: merge of rules against lists of items between commas. *Status* proved (2 theorems).
* **C64** A rule selects exactly what it describes. *Model* M_Rules: matcher against the conditions a rule states. *Status* proved (2 theorems).
* **C65** Rules decide what is loaded. *Model* M_Rules: loader against the packages named by rules, and against the matcher. *Status* partial (3 theorems). What is loaded is characterised exactly; refuted: it does not follow the matcher. Excluding a single name of the main module, or excluding it after including its functions, keeps the whole module from being loaded; a package excluded first is loaded all the same.
* **C66** A crashed setup does not leave a broken GOROOT in use. *Model* M_Setup: invariant over every prefix of the effects, for any number of crashed runs. *Status* partial (6 theorems). Proved for retries of one revision until it ends, over any history of revisions. Refuted in general: a crash while --reset-instrument removes the old copy, or while a deleted copy is made again, leaves a revision file that still matches, and going back to the old xgo after a crashed upgrade finds the old revision; in each case the next run takes half a copy for a complete one.
* **C67** Copying with several workers ends and loses nothing silently. *Model* M_Copy: small-step semantics of walk, channel and workers; invariant over all interleavings, weight for termination. *Status* partial (8 theorems). Liveness, quietness, success and the meaning of errors are proved. That no error means all files copied is refuted for more than one worker: an error reported after the last file was sent is never received. What may be missing then is bounded: only failing files while fewer fail than there are workers, otherwise at most the queue and one per worker.
* **C68** Copying a directory copies exactly the entries asked for. *Model* M_CopyTree: nested induction over the tree against a relation of paths. *Status* proved (3 theorems).
* **C69** The module a directory belongs to is the nearest one above it. *Model* M_Module: the walk up the directory tree by induction, against a relation 'nearest' over paths. *Status* partial (9 theorems). Proved for module roots other than "/" and project directories that name the directories below the root. Refuted: FindGoModDirSubPath gives the sub path reversed (two or more levels below the module; used by test-explorer); go.mod in "/" is not found; with the default project directory in a subdirectory of the module the project root becomes the working directory; a trailing slash or the vendor directory of a module looked up from below.
* **C70** The module and package path are read from go.mod. *Model* M_Module: induction over the lines of go.mod for an independent grammar of module directives. *Status* partial (5 theorems). Proved for module directives written `module path` with a space; refuted for a tab after module, quoted paths and the block form, which go accepts.
* **C71** vendor/modules.txt is read as go mod vendor writes it. *Model* M_Vendor: round trip: a printer after cmd/go's is the specification, parsing is folded over its lines. *Status* proved (3 theorems). Only the module list, packages, replacements and annotations of the format of go mod vendor are specified; workspace files (## workspace) are read as unknown annotations.
* **C72** .gitignore gains one line and only one. *Model* M_Text: the lines of a text as an inductive relation; substring search lemmas. *Status* partial (4 theorems). Added lines, idempotence and effectiveness for absent patterns are proved; refuted that the pattern is always in force: a comment, a negation or a longer pattern that contains it counts as present.
* **C73** The trace import moves no line. *Model* M_Text: substring search lemmas; text before and after split at the insertion. *Status* partial (5 theorems). Proved that no line moves for every file, and the place for files whose header does not say "package " and whose clause has no comment on its line; refuted otherwise (the import ends up in a comment, or in the middle of a later line after a stray carriage return).
* **C74** Long argument lists are batched without loss. *Model* M_Text: induction on the number of batches. *Status* proved (1 theorems).
* **C75** A command shown can be pasted into a shell. *Model* M_Text: a small executable shell reader as specification; exact characterisation of the words read back. *Status* partial (3 theorems). Exact for single words; refuted for words with quotes, |, ?, [, backquote or a leading # or ~ and no character that makes xgo quote.
* **C76** A unified test run runs the same tests. *Model* M_Unified: induction over the tests with the counts of names; names split at their last underscore. *Status* partial (6 theorems). Proved that every test of a merged package is run once; names are distinct and the binary builds if no test is called like another with _k appended. Refuted: TestA and TestA_1 in one package and TestA in another give a map literal with equal keys (no build); benchmarks, fuzz targets and examples of merged packages are not run; -run ^TestA$ runs TestA of the first package only.
* **C77** A unified test run reports and locates tests as separate ones. *Model* M_Unified: lookup in the mapping under distinct names; the start loop of testing.runTests with its directory changes. *Status* partial (4 theorems). Proved under distinct names (see C76), for tests that are not parallel; refuted for parallel tests, which run in the directory of the last package.
* **C78** Loading packages always ends and always gives the same files. *Model* M_Load: small-step system of the main goroutine, readers and parsers; invariant that places every file once and equates the wait group with the files in flight; decreasing weight. *Status* partial (5 theorems). No deadlock, termination, and the exact result when every file can be read are proved for every schedule. Refuted when a file cannot be read or is larger than MaxFileSize: the reader calls wg.Done before setting f.Error (load.go:114-115), so the file may be returned without error and without syntax (which is then dereferenced). C78_kept_partial bounds the damage: readable files are always right.
* **C79** What mock.Patch is given to replace gets instrumented. *Model* M_Resolve: expressions, scopes and the resolver as a recursive function; Go's own rules as inductive relations (lim=false), their supported part (lim=true); simulation by induction on derivations with a representation relation between xgo's types and Go's; each unsupported form refuted by a program. *Status* partial (2 theorems). Proved for functions, generic instances, variables of a known type, own methods of types and of values reached by :=, package variables, calls with one result, fields, conversions, new, make, composite literals and aliases, when locals hide nothing and all files of a package agree on the import names used. Refuted for promoted methods, x, err := f(), var x T and parameters, variables holding a function, fields declared as a, b T, types over error, rune, any, results of methods, and types read in a file with other imports.
* **C80** mock.Patch never makes another function instrumented in place of its argument. *Model* M_Resolve: from C79's simulation and determinism; the supported part is a part of Go's rules; refuted by programs for defined types, hidden locals and files with different imports. *Status* partial (3 theorems). Same fragment: exactly the right target or nothing. Refuted: type A B with its own method records the method of B; a parameter hiding an outer := variable; files of a package that import different packages under one name.
* **C81** A qualified name stands for the package Go gives it. *Model* M_Resolve: the guess of names from import paths against package clauses. *Status* partial (2 theorems). Proved when names are written, packages loaded, or named after their directory (or the one above a version). Refuted: gopkg.in/yaml.v3.
* **C82** A session delivers every event once, in order, to the page that polls it. *Model* M_Session: labelled transition system with one thread per call; invariants relating the labels seen to channel contents and to what each call has done. *Status* proved (6 theorems). All interleavings of calls. Also proved: with no poll a call sending more than 100 events never returns (page closed while a run goes on: the run blocks).
* **C83** Running a test from the explorer runs that test. *Model* M_Explorer: the pattern is interpreted by a specification of the -run language (splitting at / and |, the part of regexp syntax needed); exact characterisation of what is selected, and counterexamples. *Status* partial (8 theorems). Selection of all chosen tests is proved for names without the characters the code does not escape; that no other test is run is proved for a single top-level test, and refuted for files with several tests, for subtests and for special characters; the exact set run for a file is proved.
* **C84** Running everything runs every package with tests, once. *Model* M_Explorer: structural induction over directory trees; membership and NoDup of paths; addresses by an invariant on items kept by filter and sort. *Status* proved (2 theorems). All trees; sort.Slice is taken as an arbitrary permutation of the children.
* **C85** The test explorer shows all tests and only tests. *Model* M_Explorer: structural induction over directory trees; filter keeps the nodes with a case below, sort permutes. *Status* partial (4 theorems). Cases listed are characterised exactly; all tests of the go command are shown; refuted: only tests are shown (TestMain, methods, names like Testify are listed too).
* **C86** No item of a run is left running, and events keep what they said. *Model* M_ExplorerRun: slices on a heap with arbitrary growth; an invariant that every array reachable from a sent event is not written again; induction over the lines of output. *Status* partial (6 theorems). The single process runs: output in order, pipe not modelled here (see C87). Refuted: shown as passed only if passed (items of a package that does not compile).
* **C88** Events of a run go to the item they are about. *Model* M_ExplorerRun: the step for one line of output, from any reachable state of the run; paths of packages split into good elements. *Status* partial (6 theorems). JSON decoding is a parameter; refuted for other lines of output (the explorer crashes) and for packages of another module with a common prefix.
* **C87** A run in the test explorer comes to an end, and all its events arrive in order. *Model* M_ExplorerLive: a transition system of go test, the two readers (bufio.Scanner with its limit), errCh, the session and the page; a lexicographic measure for termination; an invariant relating what was sent to the sequential run of C86; invariants of blocked runs. *Status* partial (5 theorems). Termination without conditions; delivery if lines are shorter than 64K and the builder accepts the output. Refuted otherwise: the run blocks for ever; output on stderr can come after the end; what follows the last newline of stderr is never delivered (the theorem gives exactly the whole lines).
* **C89** A .xgo.patch file is read as written, or refused. *Model* M_PatchFile: the reader function by function; a grammar of well-formed files and one of files with an error, as inductive relations over decompositions of the text; both are equivalences (the result is Some bs exactly for well-formed files that say bs, None exactly for files with an error), by induction on the length. *Status* proved (5 theorems). Both directions. TrimSpace is modelled for ASCII.
* **C90** Applying a patch directory gives exactly the files it describes, and can be repeated. *Model* M_ApplyPatches: the walk in the order of names, copying, patching through C89's reader and M_Patch's engine; for one file of the GOROOT only the file of that name and its patch matter, and the first comes first in the walk (order of names as a total order); prefixes of the walk for crash points. *Status* partial (9 theorems). cfg.Copy is not modelled here. Refuted: a file patched in place is lost if writing it fails. The repetition assumes that patches are stable (C32).
* **C91** The commands of a patch directory are run as configured. *Model* M_ApplyPatches: substitution by repeated ReplaceAll over the map in any order, against a text of pieces; the environment as a list where the last entry counts; the loop over entries against a relation of what each entry asks for. *Status* partial (6 theorems). filepath.Clean and Join of the working directory are not modelled. Refuted: with a dollar sign in a value the result depends on the order of the map.
* **C92** A Go root that is handed out is finished, whatever stopped earlier calls. *Model* M_GitGoroot: Model of EnsureGitGoroot as a program over a disk with three outcomes (returns, fails, killed), where long steps can be cut short in any of their intermediate states; the invariant (no directory, marked, finished, or empty) is carried over every sequence of calls by a Hoare logic for that program. False where the operating system removes the marker before other files, and after a kill between the creation of the directory and of the marker: both are proved as refutations, for every release.. *Status* partial (8 theorems). Holds where removing a directory removes the marker last (C92_returned_is_finished_partial). Refuted otherwise: after one call killed before it removes the marker and one killed while it removes the directory, a Go root without any files is returned (C92_returned_is_finished_refuted). A call killed between mkdir and the marker leaves an empty directory on which every later call fails (C92_can_be_repeated_refuted). The marker is in the commit, so every worktree has it (C92_worktree_refuted).
* **C93** A Go version stands for the latest release it can mean. *Model* M_GitGoroot: Model of ResolveVersion and of the reading of the page; the search is shown to return a maximum of the comparison, which C29 ties to the numbers; the texts that begin like the version are shown to be its patch releases or prereleases.. *Status* proved (6 theorems). Proved for all versions and pages. An entry of the page that begins like a patch release but is no version can be returned, when the page has no proper one (C93_result says it begins with what was asked).
* **C94** A logged command reads back as the command. *Model* M_GitGoroot: Model of shellQuote; the shell reader of C75 is run on its output, by induction on the word.. *Status* proved (2 theorems). Proved for all words.
* **C95** A trace file is read to its end. *Model* M_TraceView: Model of readStacksFromReader over a decoder that yields fitting and unfitting values and then the end of the file or an error it keeps; the loop is a relation, so that not ending can be stated. Proved for files that end well; for every file with a broken tail after its first stack the call is proved not to end.. *Status* partial (4 theorems). Holds for files that end well (C95_reads_all_partial, C95_ends_partial). Refuted for every file that is cut or broken after its first stack: the call never returns and its memory grows without bound (C95_ends_refuted).
* **C96** A trace of the old format is shown unchanged. *Model* M_TraceView: Model of convert; by induction on the tree, an inductive relation says what the page must keep.. *Status* proved (2 theorems). Proved.
* **C97** The page of a trace shows each call once, where it belongs. *Model* M_TraceView: Model of RenderStacks and renderItem with the map keyed by addresses; a reader of the page (rows, items, enclosing sub-lists, matching of tags) is run on the output and compared with the list of calls and their enclosing calls. The names of roots differ in the details when there are several stacks, and a null entry hides the list: both are proved as refutations.. *Status* partial (6 theorems). Proved for traces without null entries, except that with several stacks the details of a root say <root> and its item <root_i> (C97_detail_is_of_head_refuted). With a null entry anywhere the page has no list and the error is dropped (C97_null_hides_all_refuted).
* **C98** A shown duration is right to the unit it is shown in. *Model* M_TraceView: Model of formatCost over the integers.. *Status* proved (2 theorems). Proved for exact division and times whose difference fits; the program divides float64 numbers.
* **C99** A server takes the first free port and announces it once. *Model* M_Serve: Transition system of ServePort and its goroutines, with the shared variable port and the timers; invariants over all runs. The announcement is right when no attempt fails after the timeout; a run is given in which it is not.. *Status* partial (6 theorems). Ports: proved. The announcement: proved when no attempt fails after the timeout (C99_watch_partial); refuted otherwise, for every starting port: announced twice, first for a port of someone else (C99_watch_refuted). The search for a free port answers 65536 when all are served (C99_find_refuted).
* **C100** A server listens where it was told, or on localhost. *Model* M_Serve: Model of GetHostAndIP, GetURLToOpen and of the two ways an address is written.. *Status* partial (4 theorems). Proved, except that for IPv6 the address is put in brackets twice before it is probed, so that the probe never succeeds (C100_probe_refuted).
* **C101** Unpacking an SDK writes nothing outside its directory. *Model* M_Download: Model of unzip with filepath.Clean, Join and Rel on components; the specification follows a path component by component from the root. By invariants of Clean (kept .. components come first) and induction on the entries. ExtractTarGz of the upgrade command is proved to write outside.. *Status* partial (4 theorems). Proved for unzip (no symbolic links: unzip makes none). Refuted for upgrade.ExtractTarGz, which joins the name unchecked (C101_extract_tar_gz_refuted).
* **C102** An SDK is installed whole or not at all. *Model* M_Download: Transition system of any number of calls that share the place of the SDK and the file being fetched, with failures and kills; invariants over all runs, and a construction of a run for the success of a new call.. *Status* partial (8 theorems). Proved, trusting that tar and unzip notice a damaged archive and that rename is atomic. Refuted: the platform is not part of the directory, so that a call for another platform returns the wrong SDK (C102_platform_refuted); the later of two calls at once fails although the SDK is installed (C102_concurrent_refuted).
* **C103** A Go version has one directory, however it is written. *Model* M_Download: Model of DirName, nakedVersion, Target, the name of the archive and parseDownloadVersions.. *Status* proved (3 theorems). Proved; blanks are ASCII.
* **C104** Injecting the version and the flags changes those constants only. *Model* M_Link: Model of the three replacements on bytes; the specification is by lines. An algebra of set-a-line operations (they commute, the last wins), related to the bytes by lemmas on the first occurrence.. *Status* proved (3 theorems). Proved.
* **C105** The project's copy of the runtime is that of this xgo and of the options of this run. *Model* M_Link: The directory as a list of files that stays from run to run, a run as a list of writes, a kill as a prefix of it. Invariant: apart from the two injected files the copy is what xgo brings, and each of these two is what xgo brings up to the injected lines.. *Status* partial (5 theorems). Proved for forced runs and runs that find no copy or an older one, from any directory, and for histories without a kill during copying, when an option is on. Refuted otherwise: the options of an earlier run stay in force in a run without options (C105_flags_refuted); a run killed while it copied, after core/version.go, leaves a copy that later runs take for complete (C105_killed_refuted, C105_killed_silent_refuted).
* **C106** The repair of old runtimes ends and replaces exactly the wrong checks. *Model* M_Link: The loop as an inductive relation, so that ending is a theorem; invariant: what is behind the search never holds a wrong check again, since the right check neither contains the wrong one nor overlaps with it. The specification is a separate relation, left-to-right replacement.. *Status* proved (2 theorems). Proved.
* **C107** Tools are built for this machine by the toolchain being set up, in the user's environment. *Model* M_Env: The environment as a list of entries, the last one of a name counts; the specification is a relation on positions in the list. By induction on the list; paths as in M_Download.. *Status* proved (2 theorems). Proved (unix).
* **C108** A command is run in the environment asked for, and its failure is reported. *Model* M_Env: Model of cmdExecEnv as a function of the parent environment, the builder, the output and the exit.. *Status* partial (6 theorems). Proved for the environment, for outputs that end in a line feed, and for failures of Run and of builders. Refuted: the plain function cmd.Output never returns an error (C108_output_refuted), so that the explorer takes a missing xgo for one that supports mock rules (C108_mock_rule_refuted); of a final CR LF the CR stays (C108_crlf_refuted).
* **C109** The rebuilt tools are linked the way this machine needs. *Model* M_Env: Model of the flags and of the environment of the rebuild.. *Status* partial (2 theorems). Proved when GOOS is unset or darwin; refuted when the user cross-compiles: GOOS of the user decides about tools that are built for this machine (C109_cross_refuted).
* **C110** The version of the toolchain is read from what it prints. *Model* M_GoInfo: Model of the parser on bytes; the specification is the grammar of versions written forwards, the theorem is that parsing inverts it.. *Status* partial (4 theorems). Proved for releases, betas, release candidates. Refuted for toolchains with experiments: their mark is taken for a part of the system (C110_experiment_refuted).
* **C111** A project that asks for a range of Go versions is not run by others. *Model* M_GoInfo: Model of CompareGoVersion and of the checks, on top of C110; the order on pairs of numbers is the specification.. *Status* partial (3 theorems). Proved on the first two numbers; refuted for the third: it is not compared (C111_patch_refuted).
* **C112** The module of a directory is the nearest one above. *Model* M_GoInfo: The tree as a function telling what go.mod is in a directory; induction on the depth.. *Status* partial (3 theorems). Nearest module proved; the path below it is proved to lead back only when it is at most one directory deep, and refuted beyond: its components are in reverse order (C112_order_refuted).
* **C113** The files of packages are listed completely and once. *Model* M_GoInfo: go list as a list of packages; the specification is membership.. *Status* partial (4 theorems). Membership proved. Refuted: external test files are left out (C113_xtest_refuted), a relative listing has the files of siblings whose name extends the directory's (C113_sibling_refuted).
* **C114** test.config.json means what it says, or is refused. *Model* M_TestConfig: JSON values as a tree; Parse as in the code. The specification is a relation between file and configuration, the theorem an equivalence, so that it also decides what is refused.. *Status* partial (4 theorems). Proved except for bypass_go_flags: "false", which is taken for true (C114_bypass_refuted).
* **C115** Tests see the variables the configuration sets, as they are written. *Model* M_TestConfig: fmt.Sprint on texts, truth values and integers; bounds on the number of digits by induction.. *Status* partial (4 theorems). Proved for texts, truth values and integers below a million; refuted from a million on, where the exponent is written (C115_number_refuted), and for null, which gives <nil> (C115_null_refuted). Arrays, objects and fractions are not modelled.
* **C116** What the explorer runs is what file and command line ask for. *Model* M_TestConfig: Model of the merge and of the command lines as lists of words; the theorem gives the list.. *Status* partial (5 theorems). Program, flags and arguments proved. Refuted: --coverage does not switch on what the file disables (C116_coverage_refuted); POST /run and /debug drop the arguments of file and command line (C116_args_refuted).
* **C117** The tools of a build are run as go asks, and only compilations by xgo's compiler. *Model* M_ToolExec: Model of the flag loop and of the dispatch as a function from arguments and environment to what is run; the flags are specified by an inductive grammar.. *Status* partial (3 theorems). Proved with -- before the tool, the way xgo calls it; refuted without: the tool is dropped and its first argument is run (C117_no_dashes_refuted).
* **C118** insert-trap changes the sources of the packages asked for, and nothing else. *Model* M_ToolExec: The same; changing a file is a parameter.. *Status* partial (4 theorems). Proved for packages with more than three slashes; refuted for the others, which are never changed (C118_short_refuted), and for --func, always an error (C118_func_refuted).
* **C119** Concurrent compilations find the files written for them. *Model* M_ToolExec: Actions on a set of files, interleaved; an invariant on what is left to do.. *Status* partial (3 theorems). Proved when no other invocation clears a directory of mine or above; refuted for the same directory (C119_same_refuted) and for one above (C119_parent_refuted).
* **C120** A page that polls a run receives the lines of its output in order. *Model* M_PollRun: Transition system of the command's writes, the pipe, the Scanner's buffer, the channel of 100 events and the page; an invariant splits the output into what was sent and what is under way.. *Status* proved (2 theorems). Proved for every interleaving and every cutting of the output into writes.
* **C121** A run ends, and then its page has received all of the output. *Model* M_PollRun: The same system: a weight that every step decreases, and an analysis of the states without a step.. *Status* partial (5 theorems). Every schedule is finite, and where nothing more can happen all complete lines, the error and the end have been received, if no line has 64 KiB or more. Refuted: a line of 64 KiB blocks the run for ever (C121_long_line_refuted), a last line without a newline is never received (C121_last_line_refuted), and the end may come before lines (C121_end_before_line_refuted).
* **C122** The status of an answer tells whether the request was served. *Model* M_Http: Model of HandleJSON over a response writer whose headers are fixed by the status.. *Status* partial (8 theorems). Proved except for panics with an error, which are answered by 200 and null (C122_panic_refuted), and for the type of errors, set too late (C122_type_refuted).
* **C123** A request that lacks something is refused and does nothing. *Model* M_Http: Each handler as a function from the request to its effects and how it ends.. *Status* partial (5 theorems). Proved for starting and showing; for polling and destroying if there is a body. Refuted without: 200 and null (C123_no_body_refuted); opening without a file opens an editor (C123_open_refuted).
* **C124** The directory made for a GOROOT or project has a valid name of its own. *Model* M_PathName: Functions on bytes; md5 is a parameter; UTF-8 is specified inductively.. *Status* partial (3 theorems). One component, bounded and distinct: proved, for md5 any function to hexadecimal digits. Valid UTF-8: refuted (C124_cut_refuted).
* **C125** Projects do not share coverage files. *Model* M_PathName: Paths as lists of components, with filepath.Join's cleaning.. *Status* partial (3 theorems). Proved for paths of letters, digits, . _ - and characters beyond ASCII; refuted for others: shared (C125_share_refuted) and outside (C125_outside_refuted).
* **C126** The coverage shown is that of the profile at the last refresh. *Model* M_PathName: State machine on the two files; induction on the operations after the refresh.. *Status* partial (2 theorems). Proved for the last refresh; clearing leaves what is shown (C126_clear_refuted).
* **C127** The type and the imports written for a variable make sense in its file. *Model* M_VarType: Types as a tree; the recorder of imports threaded through the variables of a file; an independent relation between types, imports and texts; an invariant on the names given so far.. *Status* partial (5 theorems). Proved for values of a single type; a call of several results gives the first variable a list of types, which is no type (C127_pair_refuted), and a package may be imported that the file may not import (C127_internal_refuted).
* **C128** The shadowed go command behaves like go, through xgo for build, run and test. *Model* M_Shadow: Processes over a file system of programs; PATH as bytes, with LookPath, SplitList and Clean; generations of processes as an inductive relation.. *Status* partial (9 theorems). Proved for a shadow in one directory that PATH spells cleanly, except for the input. Refuted: the command gets no standard input (C128_stdin_refuted); with a slash at the end of the entry every go command fails (C128_slash_refuted); with the directory in two spellings, or two shadows, processes are started without end (C128_twice_refuted, C128_two_shadows_refuted).
* **C129** xgo tool runs the tool of that name and nothing else. *Model* M_Tool: filepath's Base, Dir, Join and Clean on bytes; os.Stat and exec.LookPath as parameters.. *Status* partial (4 theorems). Proved when xgo is called by an absolute path. Refuted when it is called by its name: a file of the current directory makes xgo run the program of that name from PATH (C129_by_name_refuted).
* **C130** time.Now and time.Sleep can be mocked, their real versions stay reachable, and the sources can be restored. *Model* M_Time: The three edits as functions on texts, with the cleaning of M_Patch; the results are given in full, and cleaned by the theorems on marked texts.. *Status* partial (6 theorems). Proved for texts without marks, in which the function is found once and, for the runtime's directive, nothing follows on its line; otherwise that is lost by cleaning (C130_line_refuted).
