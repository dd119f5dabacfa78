{"id": "C01", "title": "The mock in force for a call is the last live registration", "statement": "At any moment, a call of function f (or a read of variable v, or a read of &v) in goroutine g is answered by the most recently registered mock for it that is still registered in g (own registration or one inherited when g was created); if g has none, by the most recently registered mock made before program init finished and not cancelled; if there is none, by no mock.", "quantifier": "every history of registrations, cancellations, goroutine creations, exits and init completion, over any number of goroutines, targets and mocks", "why_tests_cant": "the answer depends on the whole unbounded history of registrations, cancellations and forks on all goroutines", "anchors": ["runtime/internal/trap/mock.go:pushMockHandler,pushVarMockHandler,pushVarPtrMockHandler", "runtime/internal/trap/stack_data.go:getLastMock,getLastVarMock,getLastVarPtrMock", "runtime/internal/trap/init.go:inerhitStack"]}
{"id": "C02", "title": "Cancelling removes exactly that registration", "statement": "Calling the cancel function returned by a registration removes that registration and nothing else, whatever the order in which registrations are cancelled: every other registration, on every target and goroutine, stays in force in its relative order. Calling it a second time panics and changes nothing.", "quantifier": "every history and every order of cancellation", "why_tests_cant": "cancel orders grow factorially with the number of registrations", "anchors": ["runtime/internal/trap/mock.go:pushMockHandler", "runtime/internal/trap/record.go:PushRecordHandler", "runtime/internal/trap/interceptor.go:pushInterceptor"]}
{"id": "C03", "title": "Registrations are isolated between goroutines", "statement": "After init, registering a mock, recorder or interceptor in goroutine g (or cancelling it, from whichever goroutine) never changes what is in force in a goroutine other than g.", "quantifier": "every history, every pair of distinct goroutines, every operation", "why_tests_cant": "must hold for every interleaving of operations of unboundedly many goroutines", "anchors": ["runtime/internal/trap/stack_data.go:getOrAttachStackData", "runtime/internal/stack/g.go:GetOrAttachStack", "runtime/internal/runtime/g.go"]}
{"id": "C04", "title": "A new goroutine inherits a snapshot of its creator's registrations", "statement": "A goroutine created by g starts with exactly the mocks, recorders and interceptors in force in g at that moment, in the same order and with the same behaviour (target, bound instance, handler), and later changes on either side are not seen by the other.", "quantifier": "every history, every fork point, every later history", "why_tests_cant": "quantifies over all fork points and all later histories of both goroutines", "anchors": ["runtime/internal/trap/init.go:inerhitStack,cloneFuncMocks,cloneVarMocks,cloneFuncRecordMapping,cloneRecorderList"]}
{"id": "C05", "title": "Instance-bound handlers only act on their instance", "statement": "A mock or recorder registered for a method value of one instance is only ever invoked for calls whose receiver equals that instance, in the registering goroutine and in every goroutine descending from it.", "quantifier": "every history, every call, every receiver, every descendant goroutine", "why_tests_cant": "ranges over all receivers and all descendants; the defect needs an instance-bound recorder, a fork and a call on another instance", "anchors": ["runtime/internal/trap/trap.go:trap", "runtime/internal/trap/mock.go:sameReceiver", "runtime/internal/trap/init.go:cloneFuncRecordMapping"]}
{"id": "C06", "title": "Pre-init registrations are global and permanent", "statement": "A registration made before init finished is in force in every goroutine (as fallback for mocks, in addition for recorders and interceptors); cancelling it before init finished removes it everywhere, and cancelling it after init finished panics and leaves it in force.", "quantifier": "every history and every goroutine", "why_tests_cant": "all goroutines and all later histories", "anchors": ["runtime/internal/trap/mock.go:pushMockHandler", "runtime/internal/trap/stack_data.go:globalInterceptorHolder,getRecordHandlers,getGeneralInterceptors"]}
{"id": "C07", "title": "Recorders and interceptors pair up", "statement": "For every call, the post handler of each recorder/interceptor whose pre handler ran (and did not stop the call) runs exactly once after the call, receives the data its own pre handler returned, and posts run in the reverse order of the pres.", "quantifier": "every list of handlers, every mix of absent pre or post handlers, every data value", "why_tests_cant": "the number and the mix of handlers is unbounded; a single-handler test passes", "anchors": ["runtime/internal/trap/trap.go:trap", "runtime/internal/trap/var.go:doTrapVar", "runtime/go.mod"]}
{"id": "C08", "title": "Cancelling a recorder from inside a handler does not disturb the others", "statement": "If a handler cancels a registration while a call is being dispatched, every other registered handler still runs exactly once for that call.", "quantifier": "every number of handlers and every position of the cancelled one", "why_tests_cant": "depends on slice aliasing between the dispatch loop and the cancel function", "anchors": ["runtime/internal/trap/trap.go:trap", "runtime/internal/trap/record.go:PushRecordHandler", "runtime/internal/trap/interceptor.go:pushInterceptor", "runtime/internal/trap/stack_data.go:getRecordHandlers"]}
{"id": "C09", "title": "Dispatching is re-entrancy safe", "statement": "The per-goroutine trapping depth is restored after every intercepted call, whether it returns or panics, and general interceptors are never invoked for calls made from within a handler, so a handler that calls intercepted functions cannot recurse into itself through a general interceptor.", "quantifier": "every nesting of intercepted calls made by bodies and handlers, with panics anywhere", "why_tests_cant": "unbounded nesting and all panic points", "anchors": ["runtime/internal/trap/trap.go:trap", "runtime/internal/runtime/g.go:IncTrappingDepth,DecTrappingDepth"]}
{"id": "C10", "title": "The original runs exactly when nothing replaced it", "statement": "For every intercepted call, the original function body is skipped exactly when a recorder/interceptor pre handler asked to stop or the applicable mock reported that it handled the call; otherwise the body runs once.", "quantifier": "every combination of mock, recorders, interceptors, receiver, tracing and depth", "why_tests_cant": "combinatorial in the number of handlers and in the dispatch state", "anchors": ["runtime/internal/trap/trap.go:trap", "instrument/instrument_func/trap.go"]}
{"id": "C11", "title": "A trace is the call tree", "statement": "For every terminating program fragment run under trace.Trace, the exported stack is exactly the tree of the intercepted calls made by that goroutine: one entry per call allowed by the filter, children in call order under the nearest allowed caller, all finished, panicking calls flagged as such.", "quantifier": "every program (every nesting of calls, panics and recovers)", "why_tests_cant": "ranges over all call trees", "anchors": ["runtime/internal/trap/trap.go:trap", "runtime/internal/stack/stack.go:PushNew,Finish", "runtime/internal/stack/export.go"]}
{"id": "C12", "title": "Trace trees stay well-formed under concurrency", "statement": "Under every interleaving of the goroutines pushing, finishing, forking and exporting, each stack's tree stays well-formed: entry IDs are unique and increasing, each ParentID names the real parent, the unfinished entries are exactly the path from a root to Top, and Depth is the length of that path.", "quantifier": "every interleaving of any number of goroutines", "why_tests_cant": "exponentially many schedules", "anchors": ["runtime/internal/stack/stack.go:PushNew,Finish,AppendGoChild,SetEndIfZero,Snapshot"]}
{"id": "C13", "title": "An export taken at any time is consistent", "statement": "An export started at any point of any schedule never contains a half-built entry: it equals the tree at one instant per stack, marks an entry as running exactly when it was unfinished then, and later activity never changes an already exported stack.", "quantifier": "every schedule and every export point", "why_tests_cant": "the export can hit any point of any schedule", "anchors": ["runtime/internal/stack/stack.go:Snapshot,cloneEntries", "runtime/internal/stack/export.go:Export"]}
{"id": "C14", "title": "Tracing does not disturb registrations", "statement": "After trace.Trace returns, the mocks, recorders and interceptors in force in the goroutine are the ones that were in force before, plus/minus those the traced body registered/cancelled.", "quantifier": "every history containing a Trace call", "why_tests_cant": "depends on the state the history left behind when Trace is entered", "anchors": ["runtime/internal/trap/trap.go:trap", "runtime/internal/stack/g.go:DetachStack"]}
{"id": "C15", "title": "Tracing ends when Trace returns", "statement": "Once trace.Trace has returned, the goroutine is no longer tracing, whatever the configuration, so that a later Trace starts a fresh trace.", "quantifier": "every state before Trace and every Trace configuration", "why_tests_cant": "the failing configuration needs pre-existing goroutine data and no sink", "anchors": ["runtime/internal/trap/trap.go:trap"]}
{"id": "C16", "title": "Resolving a function never runs it", "statement": "Resolving the target given to Mock/Patch/Record by probing it (method values, generic functions) never executes the body of the probed function, never fires handlers, and leaves the goroutine in its prior dispatch state.", "quantifier": "every registered state of the goroutine and every probed function", "why_tests_cant": "all dispatch states", "anchors": ["runtime/internal/trap/inspect.go:Inspect", "runtime/internal/trap/trap.go:trap"]}
{"id": "C17", "title": "Goroutine-local storage is local, and inherited only on request", "statement": "A TLS key read in goroutine g returns the last value set by g, or else, for an inheritable key declared before g's creation, the value it had in the creator at the creation of g, or else nothing; sets in other goroutines never show.", "quantifier": "every history of declarations, sets, forks and exits", "why_tests_cant": "all histories over any number of keys and goroutines", "anchors": ["runtime/tls/tls.go", "runtime/tls/init.go", "runtime/internal/runtime/g.go"]}
{"id": "C18", "title": "Goroutine slot reuse leaks nothing", "statement": "A goroutine created in a slot previously used by an exited goroutine starts with no registrations, TLS values, trace or trapping depth left from the previous owner.", "quantifier": "every history, every reuse pattern", "why_tests_cant": "needs runtime slot reuse, which tests cannot schedule", "anchors": ["runtime/internal/runtime/xgo_trap_template.go:__xgo_callback_on_create_g,__xgo_callback_on_exit_g"]}
{"id": "C19", "title": "No function registration is lost or duplicated", "statement": "Every function registered by instrumented packages is delivered to the handler exactly once and in registration order, whether it registered before or after the handler was set up.", "quantifier": "every split of the registrations around the handler set-up", "why_tests_cant": "package init order is chosen by the linker", "anchors": ["runtime/internal/runtime/xgo_trap_template.go:XgoRegister,XgoSetupRegisterHandler"]}
{"id": "C20", "title": "Function lookup by package and name finds the registered function", "statement": "Looking up a registered function by package path and name returns a function of that package with that identity name, the last registered one; `T.M` also finds the pointer-receiver method `(*T).M` when no value-receiver `T.M` exists; nothing is found for names never registered.", "quantifier": "every set of registrations and every query", "why_tests_cant": "all registration sequences", "anchors": ["runtime/functab/functab.go:registerIndex,GetFuncByPkg"]}
{"id": "C21", "title": "Function names parse back into their parts", "statement": "For every package path, receiver (absent, value or pointer, with or without type parameters) and function name, the full name composed from them parses back to exactly these parts.", "quantifier": "every package path, receiver and name", "why_tests_cant": "infinitely many names with dots, slashes and brackets", "anchors": ["runtime/core/func.go:ParseFuncName"]}
{"id": "C22", "title": "A correctly typed replacement is accepted and a wrongly typed one rejected", "statement": "Patching a function or method by name accepts a replacement exactly when its type equals the target's type (minus the receiver for methods).", "quantifier": "every pair of function types", "why_tests_cant": "all arities and types", "anchors": ["runtime/internal/trap/object.go:checkFuncTypeMatch", "runtime/internal/trap/mock.go:pushMockReplacerByName,pushMockReplacerMethodByName"]}
{"id": "C23", "title": "A variable can be recorded before and after", "statement": "Recording a variable with both a pre and a post handler of the accepted type succeeds and both handlers run at every read.", "quantifier": "every accepted pair of handler types", "why_tests_cant": "every handler type", "anchors": ["runtime/internal/trap/record.go:pushRecorder"]}
{"id": "C24", "title": "Mocking a variable changes what readers see, not the variable", "statement": "While a variable mock is in force a read of the variable yields the mock's value and the variable itself is unchanged; a mock of the variable does not affect reads of its address and vice versa.", "quantifier": "every store, every sequence of reads and mocks", "why_tests_cant": "all stores and histories", "anchors": ["runtime/internal/trap/var.go:trapVar,trapVarPtr,doTrapVar", "instrument/instrument_var/trap_var.go"]}
{"id": "C25", "title": "Interceptor errors surface as the function's error", "statement": "When a mock interceptor returns an error, the intercepted call returns it as its error result if the function has a final error result, and panics otherwise; ErrMocked from a pre interceptor means replaced, never an error.", "quantifier": "every signature and every error", "why_tests_cant": "all signatures", "anchors": ["runtime/internal/trap/build.go:buildMockFromInterceptor,buildRecorderFromInterceptor"]}
{"id": "C26", "title": "Replacements receive the real arguments and set the real results", "statement": "A replacement function receives exactly the receiver (when not bound to an instance) and the arguments of the call, in order, and its results become the call's results.", "quantifier": "every arity and every argument list", "why_tests_cant": "all arities", "anchors": ["runtime/internal/trap/build.go:buildMockHandler"]}
{"id": "C27", "title": "Source edits compose", "statement": "Applying a set of non-overlapping insertions, deletions and replacements to a source text yields exactly the text in which each edited range is replaced by its new text, all other bytes are kept in order, and insertions at the same position keep their order; overlapping edits are rejected.", "quantifier": "every text and every set of edits in every queueing order", "why_tests_cant": "all texts, positions and orders", "anchors": ["support/edit/edit.go:Buffer"]}
{"id": "C28", "title": "Composed overlays resolve every file once", "statement": "Composing the caller's overlay with the generated one maps each original path to the final content: generated replacements win, chains through replacement files are followed to their end, no composed target is itself replaced, and cyclic overlays are rejected.", "quantifier": "every pair of overlays", "why_tests_cant": "all path graphs, including cycles", "anchors": ["instrument/overlay/io.go:ComposeGoOverlays,CanonicalReplace"]}
{"id": "C29", "title": "Go versions compare as a total preorder", "statement": "Version comparison is total, transitive and antisymmetric up to equality of the compared parts, and agrees with comparing the numeric components lexicographically.", "quantifier": "every pair and triple of versions", "why_tests_cant": "infinite domain", "anchors": ["support/goinfo/semver.go", "support/goinfo/version.go:CompareVersion"]}
{"id": "C30", "title": "Merging coverage profiles adds counts", "statement": "Merging profiles yields, for every block, the sum of its counts over all profiles, with each block listed once, in first-occurrence order; merging is independent of how the profiles are grouped.", "quantifier": "every list of profiles", "why_tests_cant": "all profiles and all orders", "anchors": ["support/coverage/merge.go", "support/coverage/format.go", "support/coverage/parse.go"]}
{"id": "C31", "title": "Cleaning a patched file restores the original", "statement": "For every source text and every patch content, inserting a marked patch and cleaning it gives back the original text byte for byte.", "quantifier": "every text, anchor and patch content", "why_tests_cant": "all texts", "anchors": ["instrument/patch/patch.go", "instrument/patch/clean_patch.go:CleanPatch,CleanPatchMarkers"]}
{"id": "C32", "title": "Applying patches is idempotent", "statement": "Applying a patch to a text that already carries it gives the same text as applying it once, for every text and patch.", "quantifier": "every text and every patch", "why_tests_cant": "all texts and patches", "anchors": ["instrument/patch/apply.go:ApplyXgoPatchContent,clearPatch", "instrument/patch/apply_engine.go"]}
{"id": "C33", "title": "Glob patterns match what they say", "statement": "A path matches a pattern exactly when the pattern's elements match the path's elements, `*` standing for any run of characters within one element.", "quantifier": "every pattern and every path", "why_tests_cant": "infinite domain", "anchors": ["support/pattern/pattern.go"]}
{"id": "C34", "title": "Instrumentation preserves line numbers", "statement": "Every source line that survives instrumentation stays on the same line number: inserted code contains no newline and no newline is removed.", "quantifier": "every source text and every list of instrumented functions", "why_tests_cant": "all sources", "anchors": ["instrument/instrument_func/trap.go", "instrument/instrument_var/trap_var.go", "support/edit/edit.go"]}
{"id": "C35", "title": "Unpatching restores the source and re-patching does not pile up", "statement": "Unpatching a source that the line patcher produced gives the original source back; a source without patch marks is left as it is, a mark that is never closed is an error; and applying the same patch to an already patched file gives the same code as applying it once.", "quantifier": "every source, every set of line edits, every order in which edits of one line are sorted", "why_tests_cant": "all texts and edit sets", "anchors": ["support/transform/patch/unpatch/unpatch.go:Unpatch", "support/transform/edit/line/line.go:Apply", "support/transform/patch/patch.go:Patch"]}
{"id": "C36", "title": "Only references to the package variable are rewritten", "statement": "A reference is rewritten to the interception accessor only when it denotes the package-level variable, never when a local declaration shadows it.", "quantifier": "every function body", "why_tests_cant": "all nestings of scopes and declarations", "anchors": ["instrument/resolve/scope.go", "instrument/resolve/stmt.go", "instrument/resolve/traverse.go"]}
{"id": "C37", "title": "Function lookup by full name finds the function of that name", "statement": "Looking up a full runtime name returns the last function registered under exactly that name; the name of a generic instance finds the registered generic function or method; the name of an interface method finds that method.", "quantifier": "every registration history and every name", "why_tests_cant": "all histories and names", "anchors": ["runtime/functab/functab.go:GetFuncByFullName,getInterfaceOrGenericByFullName,registerIndex"]}
{"id": "C38", "title": "An error from an interceptor that mocks a variable is not lost", "statement": "When an interceptor registered as mock of a variable (or of its address) returns an error other than ErrMocked, the read panics with it; ErrMocked keeps the value the interceptor set.", "quantifier": "every interceptor and every registration form (by value, by name, by name of the address)", "why_tests_cant": "all interceptors", "anchors": ["runtime/internal/trap/mock.go:pushMockInterceptor,PushMockByName"]}
{"id": "C39", "title": "Interceptors are given the call's own context", "statement": "An interceptor of a function whose first parameter is a context receives that call's context (a placeholder when it is nil or when there is none).", "quantifier": "every call and every interceptor", "why_tests_cant": "all calls", "anchors": ["runtime/internal/trap/build.go:buildMockFromInterceptor"]}
{"id": "C40", "title": "Semantic versions compare by precedence", "statement": "Comparing semantic versions orders valid ones by major, minor and patch number, then a release above its prereleases and prereleases identifier by identifier (numbers by value, below words); the build part does not matter, texts that are no semantic version are equal to each other and below all valid ones, and the comparison is a total preorder.", "quantifier": "all pairs and triples of texts", "why_tests_cant": "all texts", "anchors": ["support/goinfo/semver.go:CompareSemVer,parseSemver,comparePrerelease"]}
{"id": "C41", "title": "Overlay composition does not depend on map order", "statement": "Composing the same overlays always gives the same result or the same error, whatever order Go's map iteration happens to take.", "quantifier": "every pair of overlays and every iteration order", "why_tests_cant": "map order is random; all inputs", "anchors": ["instrument/overlay/io.go:ParseGoOverlay,CanonicalReplace,ComposeGoOverlays"]}
{"id": "C42", "title": "Reading through the overlay sees the last override", "statement": "Reading (or sizing) a file through the in-memory overlay yields the content last set for that file under any of its spellings, or the content of the file it was last redirected to, or the file itself when it was never overridden.", "quantifier": "every history of overrides, every file system and every path", "why_tests_cant": "all histories", "anchors": ["instrument/overlay/overlay.go:OverrideFile,OverrideContent,Read,ReadBytes,Size"]}
{"id": "C43", "title": "Each generated file is written to its own place", "statement": "Writing the overlay out maps every overridden file to a generated file that contains exactly that file's content; redirected files keep their target and nothing else is mapped.", "quantifier": "every set of overridden files, every iteration order and every list of path mappings", "why_tests_cant": "all sets of paths", "anchors": ["instrument/overlay/overlay.go:MakeGoOverlay,getPathMapping", "cmd/xgo/main.go:getPathMappings"]}
{"id": "C44", "title": "Coverage profiles survive writing and reading", "statement": "Writing a merged profile and reading it again gives the same mode and the same blocks with the same counts, and every profile text that Go produces (also with CRLF line ends or several runs appended) is read block for block with its counts.", "quantifier": "every mode, every list of blocks and every profile text", "why_tests_cant": "all texts", "anchors": ["support/coverage/parse.go:Parse,parseProfile", "support/coverage/format.go:Format"]}
{"id": "C45", "title": "Editing a file replaces its earlier patches", "statement": "After a file is edited through the patching API, its content is what the edit makes of the unpatched original, whatever patches the file carried before.", "quantifier": "every file content, every history of marked patches and every edit", "why_tests_cant": "all contents, histories and edits", "anchors": ["instrument/patch/patch.go:EditFile", "instrument/patch/clean_patch.go:CleanPatch"]}
{"id": "C46", "title": "Patch edits take effect at the place they name", "statement": "For every source text and patch block, an insert_before stands right before the text its positioning command found, an insert_after right after it, a replace_with in its place, and everything else is unchanged.", "quantifier": "every source text, every patch block and every syntax tree", "why_tests_cant": "all texts and all sequences of commands", "anchors": ["instrument/patch/apply_engine.go:applyPatch,applyEdits,combineSegments", "instrument/patch/PATCH_DSL.md"]}
{"id": "C47", "title": "Every parameter and result of an instrumented function gets a name, and the trap sees exactly those", "statement": "In every instrumented function the receiver, parameters and results keep the user's names where there are any; unnamed and blank ones get a fresh name; all of them are distinct; the trap call passes their addresses in order and the registered metadata lists them.", "quantifier": "every function declaration", "why_tests_cant": "all declarations", "anchors": ["instrument/instrument_func/trap.go:trapFunc,processFields", "instrument/compiler_extra/register.go"]}
{"id": "C48", "title": "Every wanted function is instrumented", "statement": "Exactly those functions that can be instrumented and that are mocked, configured or covered by the instrumentation mode are instrumented, in every file of every package.", "quantifier": "every package, every list of files and functions, every configuration", "why_tests_cant": "all packages and configurations", "anchors": ["instrument/instrument_func/trap.go:TrapFuncs,filter", "cmd/xgo/instrument.go"]}
{"id": "C49", "title": "Packages that must never be instrumented are left alone", "statement": "A package is open to instrumentation unless it is (or lies under) runtime, internal or vendor, is one of the packages the runtime depends on, or belongs to xgo's own runtime (its tests excepted). Of the open ones, everything of the user's own modules and of the packages named on the command line is instrumented; of the others nothing, or their exported functions when all are to be trapped and the package is not of the standard library.", "quantifier": "every package path", "why_tests_cant": "all package paths", "anchors": ["instrument/config/config.go:CheckInstrument"]}
{"id": "C50", "title": "A changed instrumentation recompiles the package", "statement": "Two builds of a package with different sets of functions, interfaces or variables to be instrumented by the compiler have different cache keys.", "quantifier": "every pair of instrumentations of a package", "why_tests_cant": "all pairs", "anchors": ["cmd/xgo/instrument.go:md5sumTraps"]}
{"id": "C51", "title": "The notes for the coverage tool survive", "statement": "The file name, original name and edit list written at the end of an instrumented file are read back unchanged from any such file.", "quantifier": "every file name, edit list and source text", "why_tests_cant": "all texts", "anchors": ["instrument/instrument_go/go_tool_cover.go", "instrument/instrument_go/xgo_cover_template.go", "cmd/xgo/instrument.go"]}
{"id": "C52", "title": "Generated names do not clash", "statement": "All names the instrumentation generates in one package (metadata variables, trap functions, accessors of variables) are distinct.", "quantifier": "every package: any number of files, functions, variables and interfaces, with any names", "why_tests_cant": "all packages", "anchors": ["instrument/constants/constants.go", "instrument/instrument_var/trap_var.go:genCode", "instrument/patch/init.go"]}
{"id": "C53", "title": "Line edits go where they belong", "statement": "Applying line edits keeps every source line in order; what is prepended to a line stands before it, what is appended after it, a replaced line is kept in a comment after its replacements; the sort's freedom to reorder edits of one line changes only their order there.", "quantifier": "every source, every set of edits within the file, every sort order", "why_tests_cant": "all sources and edit sets", "anchors": ["support/transform/edit/line/line.go:Apply,appendLines"]}
{"id": "C54", "title": "Patch nodes are matched to source nodes in order", "statement": "Each statement or declaration of a syntax-aware patch is matched to its own source node, in order, to the first that fits; a patch is refused exactly when no such matching exists.", "quantifier": "every source and patch, every comparison of nodes", "why_tests_cant": "all lists of nodes", "anchors": ["support/transform/patch/patch.go:patchNodes,findMatch"]}
{"id": "C55", "title": "Patch instructions are read as written or reported", "statement": "append, prepend and replace instructions above a node yield one edit of each kind with all its lines in order under its id; instructions that cannot be read are reported.", "quantifier": "every list of instructions", "why_tests_cant": "all texts", "anchors": ["support/transform/patch/parse.go:parseComments,tryCommand,parsePatch"]}
{"id": "C56", "title": "Every read of a package variable is rewritten", "statement": "In every instrumented function, each place that reads a package-level variable whose type is known is redirected to the interception accessor, so that a mock of the variable is seen everywhere.", "quantifier": "every function body", "why_tests_cant": "all nestings of scopes, declarations and expressions", "anchors": ["instrument/resolve/stmt.go", "instrument/resolve/expr.go", "instrument/resolve/collect_var_ref.go"]}
{"id": "C57", "title": "A rewritten reference reads the variable through its accessor", "statement": "In a file whose references to package variables are rewritten, every read becomes a call of the variable's value accessor, every address taken becomes a call of its address accessor (the & disappears), the address of a field of a pointer variable keeps its &, and no other byte of the file changes, whatever the order in which references are found; the accessor takes the variable, passes it to the trap and returns what the trap left.", "quantifier": "every source text, every set of references, every order of visiting them", "why_tests_cant": "all texts, reference sets and orders", "anchors": ["instrument/instrument_var/trap_var.go:applyRewrite", "instrument/instrument_var/var_template.go:genCode"]}
{"id": "C58", "title": "Command-line words mean what the usage says", "statement": "Every word of an xgo build, test, run, exec or setup command is either one of xgo's own flags, alone or with the value it needs, or is forwarded to go, in order and unchanged; after -- everything is forwarded, after -args everything goes to the test, after the program of run and exec everything goes to the program; nothing is lost, read twice or torn apart.", "quantifier": "every command, every list of words", "why_tests_cant": "all lists of words and all values", "anchors": ["cmd/xgo/option.go:parseOptions", "support/flag/flag.go"]}
{"id": "C59", "title": "The go command xgo runs is the one the user asked for", "statement": "The go command that is run has exactly the flags asked for, each with its last value, all -gcflags and --build-flag values in order, then the forwarded words in order, then the arguments of the test; debugging builds a debuggable binary instead and passes the rest to the program.", "quantifier": "every command, every setting, every list of options", "why_tests_cant": "all combinations of options", "anchors": ["cmd/xgo/main.go:handleBuild"]}
{"id": "C60", "title": "XGO_FLAGS are read as if written before the arguments", "statement": "The words of XGO_FLAGS are read before the arguments, except for exec, which ignores them; a request for coverage in either place is noticed.", "quantifier": "every value of the variable, every list of arguments", "why_tests_cant": "all strings", "anchors": ["cmd/xgo/main.go:parseXgoFlags,isFlagSpace,handleBuild"]}
{"id": "C61", "title": "The packages among the arguments are found", "statement": "The packages xgo loads for instrumentation are those go would build: the words that are neither flags nor values of flags.", "quantifier": "every list of flags and packages", "why_tests_cant": "all lists of words", "anchors": ["cmd/xgo/option.go:getPkgArgs"]}
{"id": "C62", "title": "The way of patching follows the Go version", "statement": "File patches are used from Go 1.25 on unless switched off, are refused before 1.24, and cannot be switched off from 1.27 on.", "quantifier": "every Go version, every value of the flag", "why_tests_cant": "all versions", "anchors": ["cmd/xgo/option.go:resolveUseFilePatches"]}
{"id": "C63", "title": "The mock rules in force are those given", "statement": "Rules of the command line come first, in order, then those of the options file; the modules to treat as main are those of the flag, else of the environment, else of the file, without duplicates and surrounding spaces; a rule or file that cannot be read is an error.", "quantifier": "every command line, environment and options file", "why_tests_cant": "all rule lists", "anchors": ["cmd/xgo/rule.go:parseModuleList,mergeOptionFiles", "cmd/xgo/option.go:firstNonEmpty", "cmd/xgo/main.go:handleBuild"]}
{"id": "C64", "title": "A rule selects exactly what it describes", "statement": "A rule applies to a declaration when all the conditions it states hold; a rule that states none applies to nothing unless it is for any; the first rule that applies decides.", "quantifier": "every rule list and declaration", "why_tests_cant": "all combinations of conditions", "anchors": ["patch/legacy/match/match.go:MatchRules,Match,toList"]}
{"id": "C65", "title": "Rules decide what is loaded", "statement": "The packages named by include rules are loaded as written, p/** as p/..., other stars are refused; what the rules include is loaded and what they exclude is not.", "quantifier": "every rule list", "why_tests_cant": "all rule lists and package patterns", "anchors": ["cmd/xgo/instrument.go:getLoadPackages,splitCommaList"]}
{"id": "C66", "title": "A crashed setup does not leave a broken GOROOT in use", "statement": "However often `xgo` was killed while it was setting up its patched copy of GOROOT, and at whatever point, the next run that ends leaves a copy in which every file xgo changes is as this version of xgo changes it, every other file is as in the original GOROOT, and nothing else is there; a run that finds its own complete copy changes nothing.", "quantifier": "all GOROOTs, revisions of xgo, numbers and points of crashes, orders in which directories are removed and copied", "why_tests_cant": "every prefix of the effects of every run, and every sequence of such runs, is a possible state on disk; tests run to the end", "anchors": ["cmd/xgo/main.go:handleBuild", "cmd/xgo/patch.go:syncGoroot,checkRevisionChanged,patchRuntime", "support/filecopy/copy.go:CopyReplaceDir"]}
{"id": "C67", "title": "Copying with several workers ends and loses nothing silently", "statement": "A directory copied with n workers: whatever the interleaving of the walk and the workers and whichever files cannot be copied, the call returns, no worker writes afterwards, and an error it returns is that of a file that could not be copied; if every file can be copied each is copied exactly once and no error is returned; if no error is returned, every file was copied. With one worker the files before the first failing one are copied and its error is returned.", "quantifier": "all lists of files, sets of failing files, numbers of workers and interleavings", "why_tests_cant": "deadlocks, lost errors and late writes depend on the schedule of goroutines; tests see a few schedules", "anchors": ["support/filecopy/copy.go:copyReplaceDir,copyNoPanic"]}
{"id": "C68", "title": "Copying a directory copies exactly the entries asked for", "statement": "Copying a directory with ignored sub paths, ignored and included suffixes acts on an entry if and only if neither it nor a directory above it is an ignored sub path and, for files and links, its path ends in an included suffix (if any are given) and in no ignored one; directories are made before what they hold, and no entry is written twice; entries that are no files, links or directories are left out.", "quantifier": "all directory trees and all filter options", "why_tests_cant": "the trees and options are unbounded; tests use fixed trees", "anchors": ["support/filecopy/copy.go:copyReplaceDir,copyDirHandle,NewOptions"]}
{"id": "C69", "title": "The module a directory belongs to is the nearest one above it", "statement": "For every directory, the module found for it is the nearest directory at or above it that holds a go.mod file (a directory named go.mod does not count), and the path reported below the module root leads from the root to the directory; if there is no go.mod above, none is found. The project root derived from a user's --project-dir is that module root.", "quantifier": "all directory trees, working directories and spellings of the project directory", "why_tests_cant": "directory trees and positions in them are unbounded; tests use a few", "anchors": ["support/goinfo/mod.go:findGoMod,ResolveMainModule", "support/goinfo/find.go:FindGoModDirSubPath", "cmd/xgo/main.go:handleBuild", "cmd/xgo/trace.go:importRuntimeDepGenOverlay,getProjectRoot"]}
{"id": "C70", "title": "The module and package path are read from go.mod", "statement": "The module path read from a go.mod is the one its module directive declares, whatever stands on other lines, in comments and in trailing blanks; the import path of a directory is the module path followed by the directory's path below the module root; a package is within a module exactly if its path is the module path or continues it after a slash, and the rest is what is reported.", "quantifier": "all go.mod contents, module paths, directories and package paths", "why_tests_cant": "the grammar of go.mod allows unboundedly many spellings", "anchors": ["support/goinfo/mod.go:parseModPath,ResolveMainModule", "support/goinfo/pkg.go:PkgWithinModule", "support/goinfo/mod.go:ResolveModulePkgPath"]}
{"id": "C71", "title": "vendor/modules.txt is read as go mod vendor writes it", "statement": "For every list of vendored modules with their replacements, explicit marks, Go versions and packages, reading the modules.txt that `go mod vendor` writes for it gives exactly the modules that provide packages, in order, the replaced modules, for each module its replacement, explicit mark and Go version, and for each package the module it belongs to.", "quantifier": "all lists of modules, replacements and packages in the format of go mod vendor", "why_tests_cant": "a parser has unboundedly many inputs; this is a round trip over all of them", "anchors": ["support/goinfo/vendor_parse.go:ParseVendorContent,parseLine", "support/goinfo/mod.go:ModCompare,FromToolchain"]}
{"id": "C72", "title": ".gitignore gains one line and only one", "statement": "Instrumenting a project in a git repository leaves its .gitignore as it is or adds the pattern of the generated directory as a new last line, leaving all other lines as they are; doing it again changes nothing; afterwards the pattern is in force.", "quantifier": "all contents of .gitignore", "why_tests_cant": "a user's file has unboundedly many shapes: no final line break, comments, negations, longer patterns", "anchors": ["cmd/xgo/instrument.go:gitignoreAdd,isDirectiveEnd"]}
{"id": "C73", "title": "The trace import moves no line", "statement": "When xgo adds its blank import to a source file without changing go.mod by hand, the text of the file is kept, the added text has no line break, so that every line keeps its number, and it stands at the end of the package clause, in files with Unix and with DOS line breaks; a file without a package clause is left alone.", "quantifier": "all file contents", "why_tests_cant": "file contents are unbounded; tests use a few", "anchors": ["cmd/xgo/trace.go:addBlankImport"]}
{"id": "C74", "title": "Long argument lists are batched without loss", "statement": "An argument list split for a limit on command lines gives batches that together are the list, in order; no batch is larger than the limit, none is empty, and there are no more than needed.", "quantifier": "all argument lists and limits", "why_tests_cant": "off-by-one errors at multiples of the limit; lists are unbounded", "anchors": ["cmd/xgo/trace.go:splitArgsBatch"]}
{"id": "C75", "title": "A command shown can be pasted into a shell", "statement": "The command line xgo prints for a command in debug mode is read by a shell as the same command and arguments.", "quantifier": "all commands and argument lists", "why_tests_cant": "quoting must be right for every combination of special characters", "anchors": ["support/cmd/quote.go:Quote", "support/cmd/cmd.go:cmdExecEnv"]}
{"id": "C76", "title": "A unified test run runs the same tests", "statement": "With --unified (XGO_UNIFIEDTEST), the tests of packages without TestMain and without external test files run in one binary: it builds, every test of every such package runs exactly as often as without, the other packages are tested as before, and -run selects the same tests.", "quantifier": "all lists of packages, test names and -run selections", "why_tests_cant": "the names of tests of many packages meet in one binary; collisions depend on combinations that tests do not enumerate", "anchors": ["instrument/instrument_go/instrument_unifiedtest/xgo_testunified.go:xgoUnifyTestPackages,xgoAfterGenerateTestMain"]}
{"id": "C77", "title": "A unified test run reports and locates tests as separate ones", "statement": "In a unified run with -json every event of a test or subtest carries the package and name of the test; events of other packages are unchanged; every test starts in the directory of its package.", "quantifier": "all lists of packages, tests, subtests and parallel tests", "why_tests_cant": "as C76; working directories are process-wide and depend on the schedule of parallel tests", "anchors": ["instrument/instrument_go/instrument_unifiedtest/xgo_testinfo.go:xgoGetTestName", "instrument/instrument_go/instrument_unifiedtest/test2json.go:instrumentTest2json", "instrument/instrument_runtime/instrument_testing/testing.go:Instrument"]}
{"id": "C78", "title": "Loading packages always ends and always gives the same files", "statement": "Reading and parsing the files of the packages with several goroutines ends under every schedule, without deadlock or a negative wait group; the files returned are those that could be read and parsed, in package order, the same for every schedule.", "quantifier": "all sets of files, numbers of readers and parsers, sets of unreadable and unparsable files, and interleavings", "why_tests_cant": "the outcome depends on interleavings of dozens of goroutines; a race shows up in a run out of many thousands", "anchors": ["instrument/load/load.go:LoadPackages"]}
{"id": "C79", "title": "What mock.Patch is given to replace gets instrumented", "statement": "For every call mock.Patch(e, ...) (and mock.Mock and the like), the function, method or variable that e denotes under the rules of Go is recorded for instrumentation, so that the replacement takes effect.", "quantifier": "all programs (packages, declarations, files and imports), all call sites with the locals visible there, and all argument expressions", "why_tests_cant": "argument expressions go through any chain of locals, fields, aliases, results and files; tests try a dozen shapes", "anchors": ["instrument/resolve/resolve.go:resolveInfo", "instrument/resolve/record.go:recordMockRef", "instrument/resolve/scope.go:GetDef", "instrument/resolve/stmt.go"]}
{"id": "C80", "title": "mock.Patch never makes another function instrumented in place of its argument", "statement": "What is recorded for mock.Patch(e, ...) is what e denotes in Go: never a method of another type, never a function of another package.", "quantifier": "all programs, call sites and argument expressions", "why_tests_cant": "a wrong target needs a coincidence of names across scopes, files or types that test programs do not have", "anchors": ["instrument/resolve/resolve.go:resolveFieldToObject", "instrument/resolve/types/type.go:ResolveAlias", "instrument/resolve/scope.go:GetDef"]}
{"id": "C81", "title": "A qualified name stands for the package Go gives it", "statement": "Within a file, a package name stands for the package that the Go compiler associates with it: the import with that written name, or the import without a written name whose package clause has that name.", "quantifier": "all lists of imports, package clauses and sets of packages already loaded", "why_tests_cant": "import paths, versions and package clauses combine without bound", "anchors": ["instrument/resolve/import.go:getFileImports"]}
{"id": "C82", "title": "A session delivers every event once, in order, to the page that polls it", "statement": "Of each session of the test explorer, the events returned by polls are exactly the events sent, in the order sent, each in one response, whatever calls overlap; a poll returns all it took and comes back empty only on its timeout; each call of Start returns a new identifier, and Get finds a started session until it is destroyed. At most one hundred events wait; a sender beyond that waits for a poll.", "quantifier": "all numbers of sessions, senders and pollers, all events, and all interleavings of their calls", "why_tests_cant": "goroutines of HTTP requests and of the test run interleave freely; tests see a few schedules", "anchors": ["support/session/session.go:sessionImpl.poll", "support/session/session.go:sessionImpl.SendEvents", "support/session/session.go:sessionManager"]}
{"id": "C83", "title": "Running a test from the explorer runs that test", "statement": "When a test, a subtest or a file is run from the test explorer, the go test command line selects every test asked for, and no test that was not asked for.", "quantifier": "all test names, subtest names and files with any number of tests, and all other tests of the package", "why_tests_cant": "the -run pattern is a regular expression built from names; which other names it matches is a question about every string", "anchors": ["cmd/xgo/test-explorer/run.go:formatRunNames", "cmd/xgo/test-explorer/run.go:escapeRegexName", "cmd/xgo/test-explorer/run.go:getTestPaths"]}
{"id": "C84", "title": "Running everything runs every package with tests, once", "statement": "Running the whole tree gives go test each directory explored that holds a listed test, once, and no other, with no -run; the items marked as running are exactly the nodes the page shows, at the addresses it has for them.", "quantifier": "all directory trees, exclude patterns and start directories", "why_tests_cant": "trees are unbounded; completeness and absence of duplicates are about all of them", "anchors": ["cmd/xgo/test-explorer/main.go:scanTests", "cmd/xgo/test-explorer/run.go:getTestPaths", "cmd/xgo/test-explorer/run.go:getAllSubRelPaths"]}
{"id": "C85", "title": "The test explorer shows all tests and only tests", "statement": "The cases shown are the test functions of the test files of all directories reached without entering an excluded directory, vendor or another module; no directory or file is shown that has none below it.", "quantifier": "all directory trees, file contents and exclude patterns", "why_tests_cant": "completeness over unbounded trees and over all function declarations", "anchors": ["cmd/xgo/test-explorer/main.go:scanTests", "cmd/xgo/test-explorer/parse.go:parseTestFuncs", "cmd/xgo/test-explorer/parse.go:filterItem"]}
{"id": "C86", "title": "No item of a run is left running, and events keep what they said", "statement": "When a run started from the test explorer ends, the last event of every item that was marked running says it is not running any more; an event, once sent, keeps the item it was sent for, whatever is sent after it; an item is shown as passed only if it passed.", "quantifier": "all trees of items asked for, all output of go test, all interleavings of growth of the slices behind the paths of events", "why_tests_cant": "the events share the arrays of their paths: whether one is overwritten depends on the capacities of all slices of the run", "anchors": ["cmd/xgo/test-explorer/run.go:buildEvent", "cmd/xgo/test-explorer/run.go:consumeTestEvent", "cmd/xgo/test-explorer/run_session.go:pathMapping", "cmd/xgo/test-explorer/run_event.go:buildEvent"]}
{"id": "C88", "title": "Events of a run go to the item they are about", "statement": "An event go test reports for a package, a test or a subtest reaches exactly the item of the tree for it, with its status and output; an unknown subtest is announced with its parents before its events; a package that does not build marks its item as failed.", "quantifier": "all module paths, package directories, test names, subtest names of any depth and all output", "why_tests_cant": "mapping names to addresses must be right for every name, and the announcement order for every sequence of events", "anchors": ["cmd/xgo/test-explorer/run.go:consumeTestEvent", "cmd/xgo/test-explorer/run_event.go:buildEvent", "cmd/xgo/test-explorer/run_event.go:resolveTests"]}
{"id": "C87", "title": "A run in the test explorer comes to an end, and all its events arrive in order", "statement": "Whatever the scheduling of go test, of the readers of its output, and of the page that polls, a run comes to rest; the page has then got all events of the run in order, up to the end of the test, and all output on stderr; no event comes after the end.", "quantifier": "all interleavings, all ways in which output is cut into reads, all output, any number of events against a session of 100 places", "why_tests_cant": "termination and ordering of concurrent processes over pipes and bounded channels", "anchors": ["cmd/xgo/test-explorer/run_session.go:Start", "cmd/xgo/test-explorer/run_session.go:consumeTestEvent", "support/session/session.go:SendEvents"]}
{"id": "C89", "title": "A .xgo.patch file is read as written, or refused", "statement": "Reading a patch file gives exactly the blocks that it contains, in order, each with its name without surrounding white space and one command per line that is neither blank nor a comment, with the text of the command as it is; an error is returned exactly for the files with an unknown command, a command without the text it needs, an unknown goto target, a copy or a directive without its keyword, or a tag or block that does not end. What a command prints is read back as the same command.", "quantifier": "all file contents, any number of blocks and lines", "why_tests_cant": "the reader must be right for every text, and the tags and keywords may occur anywhere in it", "anchors": ["instrument/patch/apply_parse.go:ParseXgoPatch", "instrument/patch/apply_parse.go:parseBlocks", "instrument/patch/apply_parse.go:parseBlock", "instrument/patch/apply_parse.go:parseLine", "instrument/patch/apply_types.go:String"]}
{"id": "C90", "title": "Applying a patch directory gives exactly the files it describes, and can be repeated", "statement": "When the patch directory has been applied to a GOROOT without an error, every file is the one of the directory if there is one, else the one that was there, patched if the directory has a patch for it; files that the directory does not name are left alone, also after an error; it is applied exactly if files can be written and every patch has its file and fits; the order of the listing does not matter; and a run that was stopped after any number of files can be repeated and gives what one run gives.", "quantifier": "all patch directories, all GOROOTs, every point at which the run stops, every order of listing", "why_tests_cant": "ranges over all directory contents, crash points and listing orders; a copied file and a patch for it interact", "anchors": ["instrument/patch/apply.go:applyPatchFiles", "instrument/patch/apply.go:ApplyXgoPatchFile", "instrument/patch/apply.go:ApplyXgoPatchContent"]}
{"id": "C91", "title": "The commands of a patch directory are run as configured", "statement": "Variables in a command are replaced by their values, in whatever order Go goes through the map, if no value has a dollar sign; the command sees its own variables, those that xgo sets (GOROOT and so on) and else those of xgo's environment; the entries are done in order, those of skipped kinds not at all, and the first failure ends it with an error.", "quantifier": "all maps in all iteration orders, all texts, all lists of entries, all environments", "why_tests_cant": "Go randomises the iteration of maps; a unit test sees one order at a time", "anchors": ["instrument/patch/apply.go:ApplyPatches", "instrument/patch/apply.go:substituteEnv", "instrument/patch/apply.go:substituteEnvSlice", "instrument/patch/apply.go:shouldSkipKind", "instrument/patch/apply.go:EffectiveCmd"]}
{"id": "C92", "title": "A Go root that is handed out is finished, whatever stopped earlier calls", "statement": "A call that makes a Go root under git for a version may fail or be killed at any point. A later call that returns a Go root returns one that has every file of the release and everything its build makes, nothing else, with exactly one commit on the branch of the version; a finished one is returned as it is; a call can always be repeated; a worktree of it has its files.", "quantifier": "all releases and builds, and all sequences of calls, each failing or killed at any step (also within a download, an extraction, a build, a git command or the removal of a directory)", "why_tests_cant": "crashes fall at any point of any step, and what they leave is the start of the next call", "anchors": ["support/gitgoroot/gitgoroot.go:EnsureGitGoroot", "support/gitgoroot/gitgoroot.go:initGitGoroot", "support/gitgoroot/gitgoroot.go:downloadAndExtract", "support/gitgoroot/gitgoroot.go:IsGitGorootValid", "support/gitgoroot/gitgoroot.go:SpawnWorktree"]}
{"id": "C93", "title": "A Go version stands for the latest release it can mean", "statement": "A Go version given in full, with or without go before it and with any white space around it, is taken as it is. A version of the form major.minor stands for the patch release of it with the largest number on the download page, whatever else the page lists; for its highest prerelease when it has no patch release; and is an error when it has neither. Nothing is returned that does not begin with the version asked for.", "quantifier": "all versions and all pages", "why_tests_cant": "the choice must be right for every page, in any order and with any junk on it", "anchors": ["support/gitgoroot/gitgoroot.go:ResolveVersion", "support/gitgoroot/gitgoroot.go:parseDownloadVersions", "support/goinfo/version.go:CompareVersion"]}
{"id": "C94", "title": "A logged command reads back as the command", "statement": "The command line that is logged for a git, curl or build command is read by a shell as exactly the words of that command; words of letters, digits and / . - _ = : are shown as they are.", "quantifier": "all commands and argument lists, with any bytes in them", "why_tests_cant": "quoting must be right for every combination of characters", "anchors": ["support/gitgoroot/gitgoroot.go:shellQuoteArgs", "support/gitgoroot/gitgoroot.go:shellQuote"]}
{"id": "C95", "title": "A trace file is read to its end", "statement": "Reading a trace file returns every value of it as a stack, in order; a value that is no stack is shown as an error in its place. The first value decides: no value at all is an empty trace, a first value that does not fit or is incomplete is an error, a first value of another format is left to the reader of the old format. The call returns for every file.", "quantifier": "all files: any number of values that fit or do not, ended by the end of the file or by broken text", "why_tests_cant": "termination and completeness over files of any length, complete or cut", "anchors": ["cmd/xgo/trace/render/render.go:readStacksFromReader"]}
{"id": "C96", "title": "A trace of the old format is shown unchanged", "statement": "Every entry of an old trace is on the page with its times, arguments, results, error, panic flag and, as its name, its full name, below the same parent and in the same order. The trace is shown exactly when every entry is there and describes its function.", "quantifier": "all trees of entries of any depth and width, with any of them missing", "why_tests_cant": "must hold for every tree shape", "anchors": ["cmd/xgo/trace/convert.go:convert", "cmd/xgo/trace/convert.go:convertStackEntries", "cmd/xgo/trace/convert.go:convertFuncInfo"]}
{"id": "C97", "title": "The page of a trace shows each call once, where it belongs", "statement": "The page has one item and one row of details for each call, numbered in the order the calls began; the item and the row with the same number are of the same call; an item lies in the sub-lists of exactly the calls it is in; it has a toggle if and only if it has calls in it, and is marked as panicking or failed if and only if it is; the tags of the list match; names cannot be taken as markup and are read back as they are.", "quantifier": "all lists of stacks, trees of any depth, and names with any bytes", "why_tests_cant": "ids, nesting and escaping must agree for every tree", "anchors": ["cmd/xgo/trace/render/render.go:RenderStacks", "cmd/xgo/trace/render/render_item.go:renderItem", "cmd/xgo/trace/render/format.go:marshalStackWithoutChildren"]}
{"id": "C98", "title": "A shown duration is right to the unit it is shown in", "statement": "The duration of a call is shown as the whole number of units in it, in the largest unit that goes into it, with a minus sign if it ended before it began; it is empty exactly when there are no times.", "quantifier": "all begin and end times", "why_tests_cant": "unit choice and truncation must be right at every boundary", "anchors": ["cmd/xgo/trace/render/format.go:formatCost"]}
{"id": "C99", "title": "A server takes the first free port and announces it once", "statement": "A port is tried only after every port before it, from the one asked for, was found in use, and never twice; without the leave to go on only the port asked for is tried. The announcement is made at most once, after the port is tried, and for the port that serves. Looking for a free port ends with the first port nobody serves.", "quantifier": "all starting ports, all answers of the network, all outcomes of the attempts and all schedules of the announcing goroutines and their timers", "why_tests_cant": "depends on the interleaving of goroutines, timers and failures", "anchors": ["support/netutil/netutil.go:ServePort", "support/netutil/netutil.go:watchSignalWithinTimeout", "support/netutil/netutil.go:FindListenablePort"]}
{"id": "C100", "title": "A server listens where it was told, or on localhost", "statement": "A server listens on the address asked for if it is an address of the machine, 0.0.0.0 or ::, and otherwise on localhost and nothing else; on the port asked for if it is a number, otherwise on 7070. The address it probes before is the address it listens on. The addresses it prints are those of the machine, each once, when it listens on all.", "quantifier": "all addresses of the machine, all addresses and ports asked for", "why_tests_cant": "must hold for every machine and every argument", "anchors": ["support/netutil/netutil.go:GetHostAndIP", "support/netutil/netutil.go:GetURLToOpen", "support/netutil/netutil.go:ServePortHTTP"]}
{"id": "C101", "title": "Unpacking an SDK writes nothing outside its directory", "statement": "Whatever the names of the entries of a zip archive, every file and directory that is made lies in the directory it is unpacked to. An entry whose name does not lead above its start is unpacked exactly where its name says; below an absolute directory an entry is refused if and only if it leads out of it.", "quantifier": "all archives with any names, all target and working directories", "why_tests_cant": "names are chosen by whoever made the archive; every combination of dots, slashes and empty components", "anchors": ["support/downloadgo/archive.go:unzip", "support/downloadgo/archive.go:unzipFile", "cmd/xgo/upgrade/extract.go:ExtractTarGz"]}
{"id": "C102", "title": "An SDK is installed whole or not at all", "statement": "Whatever calls of Download for a version run at the same time, fail or are killed, the directory of the SDK is absent or holds a complete SDK, and is never changed once there; a call that returns without an error leaves it there. A new call can always go on to success, whatever was left behind. A version the list does not have is not fetched.", "quantifier": "all interleavings of any number of calls, kills and failures at any step, all files left behind", "why_tests_cant": "depends on crash points and interleavings", "anchors": ["support/downloadgo/download.go:Download", "support/downloadgo/archive.go:curlDownload", "support/downloadgo/archive.go:extractArchive"]}
{"id": "C103", "title": "A Go version has one directory, however it is written", "statement": "1.x and go1.x name the same directory and the same archive, different versions different directories. The listed versions are exactly those in the first id of the lines of the page that open a div.", "quantifier": "all version texts and all pages", "why_tests_cant": "must hold for every text", "anchors": ["support/downloadgo/downloadgo.go:DirName", "support/downloadgo/downloadgo.go:Target", "support/downloadgo/list.go:parseDownloadVersions"]}
{"id": "C104", "title": "Injecting the version and the flags changes those constants only", "statement": "In a file whose declarations of constants are on lines of their own, injecting the version of xgo sets XGO_VERSION, XGO_REVISION and XGO_NUMBER, injecting flags sets the trace flag, the trace directory and the race flag, each to the given value; every other line, and the core version that is read from the file, stay. Done again with other values it has the effect of the last time only.", "quantifier": "all such files and all values that have no end of line and no declaration in them", "why_tests_cant": "must hold for every file, for every value and for every repetition", "anchors": ["instrument/instrument_xgo_runtime/parse.go:replaceByLine", "instrument/instrument_xgo_runtime/parse.go:ReplaceActualXgoVersion", "instrument/instrument_xgo_runtime/parse.go:InjectFlags", "instrument/instrument_xgo_runtime/parse.go:ParseCoreVersion"]}
{"id": "C105", "title": "The project's copy of the runtime is that of this xgo and of the options of this run", "statement": "Whatever runs came before, and whatever they left in the directory, a run compiles the runtime files xgo brings, all of them and no others, with the version of this xgo and with the trace and race options of this run.", "quantifier": "all earlier histories of runs with any options, all crash points, all contents of the directory", "why_tests_cant": "depends on histories and crash points", "anchors": ["cmd/xgo/trace.go:loadDependency", "cmd/xgo/trace.go:needCopyRuntimeFromXgo", "instrument/instrument_xgo_runtime/link.go:LinkXgoRuntime"]}
{"id": "C106", "title": "The repair of old runtimes ends and replaces exactly the wrong checks", "statement": "For every file the repair of runtime v1.1.0 ends, in one way only. A file without the declaration it looks for is unchanged; in others each wrong check after the declaration is replaced by the right one, from left to right, and nothing else is changed. Repairing again changes nothing.", "quantifier": "all files", "why_tests_cant": "a loop that searches its own output; must end for every file", "anchors": ["instrument/instrument_xgo_runtime/legacy.go:replaceContentAfter", "instrument/instrument_xgo_runtime/legacy.go:fixLegacyCtxRetrieval"]}
{"id": "C107", "title": "Tools are built for this machine by the toolchain being set up, in the user's environment", "statement": "Whatever the environment, with any repetitions in it, the environment made for a GOROOT sets GOROOT to it, puts its bin directory before the PATH there was and keeps the value of every other variable. Native builds moreover clear GOOS, GOARCH and GOEXPERIMENT, switch xgo off and change nothing else.", "quantifier": "all environments and all absolute GOROOTs", "why_tests_cant": "must hold for every environment, with repeated and malformed entries", "anchors": ["instrument/build/env.go:MakeGorootEnv", "instrument/build/env.go:EnvForNative", "instrument/build/build.go:BuildNativeBinary"]}
{"id": "C108", "title": "A command is run in the environment asked for, and its failure is reported", "statement": "What a command is given overrides what it inherits, and without inheritance it sees nothing else. Its output is returned without the end of its last line. If it fails an error is returned, unless it was to be ignored.", "quantifier": "all environments, all outputs, all ways to start a command", "why_tests_cant": "must hold for every environment and every output", "anchors": ["support/cmd/cmd.go:cmdExecEnv", "support/cmd/cmd.go:Output", "cmd/xgo/test-explorer/config.go:getXgoSupportsMockRule"]}
{"id": "C109", "title": "The rebuilt tools are linked the way this machine needs", "statement": "When the toolchain is rebuilt, its tools, which run on this machine, are linked externally exactly when the machine is an Apple Silicon Mac and Go is older than 1.23, whatever system the user compiles for.", "quantifier": "all machines, environments and Go versions", "why_tests_cant": "depends on the machine and the environment", "anchors": ["instrument/build/build.go:NeedExternalLinker", "instrument/build/build.go:RebuildGoBinary", "instrument/build/env.go:GetTargetGOOS"]}
{"id": "C110", "title": "The version of the toolchain is read from what it prints", "statement": "Whatever release is asked, with two or three numbers, beta or release candidate, and whatever its system and architecture, the version read from the output of go version has its numbers, system and architecture; a version written out is read back; output that is not go's is refused.", "quantifier": "all version numbers, pre-release marks, systems and architectures", "why_tests_cant": "must hold for every release, future ones included", "anchors": ["support/goinfo/goinfo.go:ParseGoVersion", "support/goinfo/goinfo.go:ParseGoVersionNumber", "support/goinfo/goinfo.go:GoVersion.String"]}
{"id": "C111", "title": "A project that asks for a range of Go versions is not run by others", "statement": "A toolchain is accepted exactly when its version is not below the lower bound and not above the upper one, a bound that is not set binding nothing; a toolchain that cannot be asked is refused when a bound is set.", "quantifier": "all versions and all bounds", "why_tests_cant": "must hold for every version and bound", "anchors": ["support/testconfig/config.go:ValidateGoConstraint", "support/goinfo/goinfo.go:CompareGoVersion"]}
{"id": "C112", "title": "The module of a directory is the nearest one above", "statement": "From any directory of any tree the module found is the nearest directory above with a file go.mod, and the path below it leads back to the directory.", "quantifier": "all directory trees and all directories", "why_tests_cant": "must hold at every depth", "anchors": ["support/goinfo/find.go:FindGoModDirSubPath", "cmd/xgo/test-explorer/config.go:parseConfigAndMergeOptions"]}
{"id": "C113", "title": "The files of packages are listed completely and once", "statement": "The files listed for a set of packages are their Go sources and tests, absolute or relative to a directory, and a relative listing is confined to the directory.", "quantifier": "all packages, files and directories", "why_tests_cant": "must hold for every set of packages and names", "anchors": ["support/goinfo/list.go:ListFiles", "support/goinfo/list.go:ListRelativeFiles"]}
{"id": "C114", "title": "test.config.json means what it says, or is refused", "statement": "Whatever JSON value the file holds, it is either refused or read so that every known key has the value it says, the last of repeated ones, null being as good as nothing; unknown keys change nothing, and a value of the wrong kind is refused.", "quantifier": "all JSON values, with repeated, unknown and null keys", "why_tests_cant": "must hold for every file a user may write", "anchors": ["support/testconfig/config.go:Parse", "support/testconfig/config.go:toStringList", "support/testconfig/config.go:toBoolean", "support/testconfig/config.go:toMarshaledStrings"]}
{"id": "C115", "title": "Tests see the variables the configuration sets, as they are written", "statement": "Every variable under env is given to the tests with the text, truth value or number written there, and no other variable is.", "quantifier": "all env objects and all values", "why_tests_cant": "must hold for every value, numbers of every size included", "anchors": ["support/testconfig/config.go:EnvPairs", "support/testconfig/config.go:CmdEnv"]}
{"id": "C116", "title": "What the explorer runs is what file and command line ask for", "statement": "For every file and command line, the program is the command line's, else the file's, else the default; the flags of both are passed in that order with the mock rules xgo supports and the coverage flags; the arguments of both follow -args. Coverage is collected as asked.", "quantifier": "all files, command lines, items and ways to run", "why_tests_cant": "must hold for every combination of options", "anchors": ["cmd/xgo/test-explorer/config.go:parseConfigAndMergeOptions", "cmd/xgo/test-explorer/run_session.go:runTest", "cmd/xgo/test-explorer/debug.go:debugTest", "cmd/xgo/test-explorer/poll.go:startRun", "cmd/xgo/test-explorer/run.go:run"]}
{"id": "C117", "title": "The tools of a build are run as go asks, and only compilations by xgo's compiler", "statement": "Whatever flags, tool and arguments exec_tool is given, every tool but the compiler, and the compiler asked for its version, is run with exactly its arguments; another compilation is run with exactly its arguments by the compiler xgo built, enabled as asked; unknown flags are errors.", "quantifier": "all flags, tools, arguments and environments", "why_tests_cant": "must hold for every tool invocation of every build", "anchors": ["cmd/xgo/exec_tool/main.go:Main", "cmd/xgo/exec_tool/main.go:handleCompile", "cmd/xgo/exec_tool/option.go:parseOptions"]}
{"id": "C118", "title": "insert-trap changes the sources of the packages asked for, and nothing else", "statement": "For every compilation go-tool-exec insert-trap is given, the files with functions of the packages named, or of all, are replaced by their changed copies, and every other argument, tool and package is left alone. The flags of the usage are accepted.", "quantifier": "all packages, files, tools and flags", "why_tests_cant": "must hold for every tool invocation of every build", "anchors": ["cmd/xgo/exec_tool/tool_exec_main.go:handleInsertTrap", "cmd/xgo/exec_tool/tool_exec_main.go:isSystemPkg", "cmd/xgo/exec_tool/tool_exec_main.go:replaceWithTmpFiles"]}
{"id": "C119", "title": "Concurrent compilations find the files written for them", "statement": "Go compiles packages concurrently; in every interleaving each compiler that insert-trap starts finds all the files written for it.", "quantifier": "all interleavings of any number of invocations on any directories", "why_tests_cant": "depends on the schedule", "anchors": ["cmd/xgo/exec_tool/tool_exec_main.go:replaceWithTmpFiles"]}
{"id": "C120", "title": "A page that polls a run receives the lines of its output in order", "statement": "Whatever the schedule of the command, the goroutine that reads its output, the channel and the page, the lines a page has received are at every moment the first lines of the output, in order, none twice; the error of the run is received at most once, and the end at most once.", "quantifier": "all outputs, cut into writes in any way, and all interleavings of command, reader and page", "why_tests_cant": "depends on the schedule and on where the writes are cut", "anchors": ["cmd/xgo/test-explorer/poll.go:startRun", "support/session/session.go:PollEvents"]}
{"id": "C121", "title": "A run ends, and then its page has received all of the output", "statement": "Every run comes to an end if the page keeps polling, and then the page has received every line of the output and the end, the end last.", "quantifier": "all outputs and all interleavings", "why_tests_cant": "a liveness property over all schedules", "anchors": ["cmd/xgo/test-explorer/poll.go:startRun", "support/session/session.go:SendEvents"]}
{"id": "C122", "title": "The status of an answer tells whether the request was served", "statement": "Every JSON endpoint answers exactly once: data with 200 and their encoding, an error with its status and message as text/plain, a panic with 500; any page may read the answer, and a preflight request does not run the handler.", "quantifier": "all methods, handlers' results, errors and panics", "why_tests_cant": "must hold for whatever a handler does", "anchors": ["support/netutil/http.go:HandleJSON", "support/netutil/http.go:SetCORSHeaders"]}
{"id": "C123", "title": "A request that lacks something is refused and does nothing", "statement": "For every body and query, a request to start, poll or destroy a session, to show a test or to open a file that lacks what it needs is answered with 400 and has no effect; any other does what it asks for.", "quantifier": "all bodies and queries", "why_tests_cant": "ranges over every request a page or script can send", "anchors": ["cmd/xgo/test-explorer/run_session.go:setupSessionHandler", "cmd/xgo/test-explorer/poll.go:setupPollHandler", "cmd/xgo/test-explorer/main.go:getDetail", "cmd/xgo/test-explorer/open.go:handleOpenFile"]}
{"id": "C124", "title": "The directory made for a GOROOT or project has a valid name of its own", "statement": "For every path, the name xgo derives for the instrumented GOROOT, the cache or the traces is a single component of a path, valid UTF-8 and of bounded length, and two paths have the same name only if the first 8 digits of their sums agree.", "quantifier": "all paths", "why_tests_cant": "ranges over every path of a file system", "anchors": ["cmd/xgo/pathsum/path.go:PathSum", "cmd/xgo/pathsum/path.go:shortPath", "support/fileutil/path.go:CleanSpecial"]}
{"id": "C125", "title": "Projects do not share coverage files", "statement": "The directories for the coverage of two projects are different, and below the directory for coverage.", "quantifier": "all pairs of absolute paths", "why_tests_cant": "ranges over every pair of paths", "anchors": ["cmd/xgo/coverage/cov_control/cov_control.go:mapCovDir", "support/fileutil/path.go:CleanSpecial"]}
{"id": "C126", "title": "The coverage shown is that of the profile at the last refresh", "statement": "After any sequence of test runs, refreshes and clears, the coverage shown is the summary of the profile at the last refresh that did not fail, and none after a clear.", "quantifier": "all sequences of operations", "why_tests_cant": "ranges over histories", "anchors": ["cmd/xgo/coverage/cov_control/cov_control.go:GetCoverage", "cmd/xgo/coverage/cov_control/cov_control.go:Refresh", "cmd/xgo/coverage/cov_control/cov_control.go:Clear"]}
{"id": "C127", "title": "The type and the imports written for a variable make sense in its file", "statement": "For every file, whatever its package variables and the types of their values: the type xgo writes into the accessor of a variable means the type of the variable in that file, with the imports xgo adds; a variable whose type cannot be written is left alone; no added import name or path occurs twice, and none is unused.", "quantifier": "all lists of variables and all types", "why_tests_cant": "ranges over every type expression and every mix of variables in one file; a wrong name or an unused import breaks the user's build", "anchors": ["instrument/instrument_var/trap_var.go:useTypeInFile", "instrument/instrument_var/trap_var.go:doUseTypeInFile", "instrument/instrument_var/trap_var.go:RecordImport", "instrument/resolve/traverse.go"]}
{"id": "C128", "title": "The shadowed go command behaves like go, through xgo for build, run and test", "statement": "For every PATH, set of files, arguments and environment: the go command that xgo shadow installs runs xgo for build, run and test (unless bypassed) and the go command otherwise, with the same arguments, environment and input and with its status; the go command it runs, or tells xgo to run, is the first in PATH that is not the shadow; it never runs itself, and runs nothing if there is no other go.", "quantifier": "all PATHs, file systems, arguments and environments", "why_tests_cant": "ranges over every configuration of a user's machine; an endless recursion of processes shows only in some of them", "anchors": ["cmd/xgo/shadow/shadow.go:main", "cmd/xgo/shadow/shadow.go:GetRealGoPath", "cmd/xgo/shadow/exclude_path.go:excludeInList", "cmd/xgo/main.go:getNakedGo"]}
{"id": "C129", "title": "xgo tool runs the tool of that name and nothing else", "statement": "For every argument list, way of calling xgo and file system: the names of xgo's own tools mean those tools; any other name runs the program of that name beside xgo, or else in ~/.xgo/bin, with the arguments that follow; a name that is a path, xgo's own name or the name of no such program runs nothing.", "quantifier": "all names, arguments, ways to call xgo and file systems", "why_tests_cant": "ranges over every name and file system", "anchors": ["cmd/xgo/tool.go:handleTool", "cmd/xgo/tool.go:tryHandleTool"]}
{"id": "C130", "title": "time.Now and time.Sleep can be mocked, their real versions stay reachable, and the sources can be restored", "statement": "For every source of the time package: instrumenting a GOROOT adds a copy of Now under the name XgoRealNow, makes Sleep a function that calls XgoRealSleep and links the runtime's function to that name, changes nothing else, and instrumenting again or cleaning gives the same file or the original.", "quantifier": "all source texts with these functions", "why_tests_cant": "must hold for the sources of every Go release and for every history of instrumentation", "anchors": ["instrument/instrument_runtime/time.go:instrumentTimeNow", "instrument/instrument_runtime/time.go:instrumentTimeSleep", "instrument/instrument_runtime/time.go:instrumentRuntimeTimeSleep", "instrument/patch/patch.go:EditFile"]}
