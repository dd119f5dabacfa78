{
 "claims": [
  {
   "property": "C01",
   "status": "proved",
   "theorems": [
    "C01_last_live_mock_wins"
   ],
   "note": ""
  },
  {
   "property": "C02",
   "status": "proved",
   "theorems": [
    "C02_cancel_succeeds_iff_live",
    "C02_cancel_always_defined",
    "C02_cancel_removes_exactly_one",
    "C02_failed_cancel_changes_nothing",
    "C02_slice_cancel_is_list_removal"
   ],
   "note": ""
  },
  {
   "property": "C03",
   "status": "proved",
   "theorems": [
    "C03_only_the_concerned_goroutine_changes",
    "C03_globals_fixed_after_init"
   ],
   "note": ""
  },
  {
   "property": "C04",
   "status": "partial",
   "theorems": [
    "C04_child_inherits_everything_but_recorder_binding_partial",
    "C04_child_inherits_recorder_handlers_partial",
    "C04_recorder_binding_refuted"
   ],
   "note": "Snapshot inheritance proved for mocks, variable mocks/recorders and interceptors; refuted for instance-bound recorders, whose binding is dropped by cloneFuncRecordMapping (init.go:107-122)."
  },
  {
   "property": "C05",
   "status": "partial",
   "theorems": [
    "C05_bound_mock_only_on_its_instance",
    "C05_bound_recorder_in_own_goroutine_partial",
    "C05_bound_recorder_in_child_refuted",
    "C05_mock_applied_exactly",
    "C05_recorders_applied_exactly_partial"
   ],
   "note": "Proved for mocks in every goroutine and for recorders in the goroutine that registered them; refuted for recorders in child goroutines."
  },
  {
   "property": "C06",
   "status": "proved",
   "theorems": [
    "C06_global_in_force_everywhere_forever",
    "C06_cancel_before_init_removes_everywhere",
    "C06_handlers_are_local_then_global",
    "C06_handlers_in_force",
    "C06_global_mock_answers_everywhere"
   ],
   "note": ""
  },
  {
   "property": "C07",
   "status": "partial",
   "theorems": [
    "C07_pairing_refuted",
    "C07_nil_post_panics_refuted",
    "C07_other_instance_disturbs_refuted",
    "C07_pairing_single_partial",
    "C07_pairing_per_iteration_partial",
    "C07_variable_post_order_refuted",
    "C07_call_sequence_partial",
    "C07_pres_in_order",
    "C07_variable_read_sequence_partial"
   ],
   "note": "Refuted: with the pre-1.22 loop variable the runtime module is compiled with, two recorders break the pairing (second post runs twice, with foreign data; a nil post panics; a recorder bound to another instance disturbs), and variable posts do not run in reverse. Proved: at most one recorder and one interceptor; all handler lists under per-iteration loop variables."
  },
  {
   "property": "C08",
   "status": "partial",
   "theorems": [
    "C08_self_cancel_refuted",
    "C08_double_invocation_refuted",
    "C08_with_globals_partial",
    "C08_without_cancel_partial"
   ],
   "note": "Refuted: the range loop aliases the registration slice and cancel shifts it in place, so a self-cancelling recorder makes the next one be skipped and the last run twice. Proved when a global registration also exists and when nothing is cancelled."
  },
  {
   "property": "C09",
   "status": "partial",
   "theorems": [
    "C09_depth_restored",
    "C09_no_general_in_handlers_partial",
    "C09_nosink_trace_refuted"
   ],
   "note": "Depth restoration proved for every program, with panics anywhere. The second half is proved when every Trace has a sink and refuted otherwise (trap.go:304 returns the post handlers unwrapped)."
  },
  {
   "property": "C10",
   "status": "proved",
   "theorems": [
    "C10_body_runs_iff_not_replaced"
   ],
   "note": ""
  },
  {
   "property": "C11",
   "status": "partial",
   "theorems": [
    "C11_call_tree_partial",
    "C11_spec_deterministic",
    "C11_consecutive_traces_partial",
    "C11_panicking_mock_refuted",
    "C11_deferred_call_flag_refuted",
    "C11_panicking_post_refuted",
    "C11_handler_calls_refuted"
   ],
   "note": "Proved for handlers that observe without replacing or panicking and mocks that do not panic (Panic flags exact when deferred functions make no calls). Refuted outside: panicking mock or post handler leaves the entry open and nests later siblings under it; calls in deferred functions during a panic are flagged; calls made by handlers appear only if stopped."
  },
  {
   "property": "C12",
   "status": "partial",
   "theorems": [
    "C12_well_formed_partial",
    "C12_panicking_mock_refuted",
    "C12_go_entries_share_id_refuted",
    "C12_tree_is_history"
   ],
   "note": "Proved for every interleaving of pushes, finishes, forks, exits and exports. Refuted for a traced call whose mock panics (its entry stays unfinished) and for go marker entries (all have ID 0)."
  },
  {
   "property": "C13",
   "status": "proved",
   "theorems": [
    "C13_export_consistent",
    "C13_snapshot_immutable",
    "C13_export_shows_history"
   ],
   "note": ""
  },
  {
   "property": "C14",
   "status": "partial",
   "theorems": [
    "C14_trace_start_neutral_partial",
    "C14_trace_end_keeps_other_goroutines_partial",
    "C14_trace_keeps_registrations_refuted"
   ],
   "note": "Refuted: the end of trace.Trace detaches the goroutine data (trap.go:446) and drops every registration. Proved: starting a trace changes nothing, ending one never touches other goroutines."
  },
  {
   "property": "C15",
   "status": "partial",
   "theorems": [
    "C15_trace_with_sink_ends_partial",
    "C15_tracing_until_the_end",
    "C15_tracing_unaffected",
    "C15_trace_without_sink_refuted"
   ],
   "note": "Refuted for a configuration without OutputFile and OnFinish on a goroutine that already has data; proved when a sink is configured."
  },
  {
   "property": "C16",
   "status": "proved",
   "theorems": [
    "C16_probe_runs_nothing"
   ],
   "note": ""
  },
  {
   "property": "C17",
   "status": "proved",
   "theorems": [
    "C17_tls_is_local",
    "C17_live",
    "C17_others_do_not_show"
   ],
   "note": ""
  },
  {
   "property": "C18",
   "status": "proved",
   "theorems": [
    "C18_slot_reuse_leaks_no_registration",
    "C18_slot_reuse_leaks_no_storage"
   ],
   "note": ""
  },
  {
   "property": "C19",
   "status": "proved",
   "theorems": [
    "C19_exactly_once_in_order",
    "C19_delivery_monotone",
    "C19_second_setup_panics"
   ],
   "note": ""
  },
  {
   "property": "C20",
   "status": "proved",
   "theorems": [
    "C20_lookup_by_package_and_name",
    "C20_lookup_sound",
    "C20_lookup_by_address"
   ],
   "note": ""
  },
  {
   "property": "C21",
   "status": "partial",
   "theorems": [
    "C21_parse_partial",
    "C21_nested_type_args_refuted",
    "C21_bare_name",
    "C21_func_type_args_refuted",
    "C21_dotted_package_refuted"
   ],
   "note": "Proved for type arguments without nested brackets or function types and packages whose last element has no unescaped dot; refuted for each of these three."
  },
  {
   "property": "C22",
   "status": "partial",
   "theorems": [
    "C22_patch_by_value",
    "C22_patch_by_name_partial",
    "C22_variadic_refuted",
    "C22_patch_method_by_name_refuted",
    "C22_variable_replacer"
   ],
   "note": "Patch by value proved; by name proved up to variadicity (refuted: a variadic function accepts a non-variadic replacement). PatchMethodByName is refuted for every input: with the right types checkFuncTypeMatch indexes past the last parameter (object.go:172) and panics."
  },
  {
   "property": "C23",
   "status": "partial",
   "theorems": [
    "C23_pre_and_post_refuted",
    "C23_single_handler_partial",
    "C23_single_handler_table"
   ],
   "note": "Refuted: the test preIsPtr == postIsPtr (record.go:59) is inverted, so a pre and a post together are always rejected. Proved: a single handler is accepted."
  },
  {
   "property": "C24",
   "status": "proved",
   "theorems": [
    "C24_read",
    "C24_read_address",
    "C24_value_and_address_are_separate",
    "C24_only_the_replacement_writes"
   ],
   "note": ""
  },
  {
   "property": "C25",
   "status": "proved",
   "theorems": [
    "C25_mock_interceptor",
    "C25_pre_interceptor",
    "C25_post_interceptor",
    "C25_caller_sees_error"
   ],
   "note": ""
  },
  {
   "property": "C26",
   "status": "proved",
   "theorems": [
    "C26_replacement",
    "C26_recorder"
   ],
   "note": ""
  },
  {
   "property": "C27",
   "status": "proved",
   "theorems": [
    "C27_edits_compose",
    "C27_reading_in_between"
   ],
   "note": ""
  },
  {
   "property": "C28",
   "status": "proved",
   "theorems": [
    "C28_composed_exact",
    "C28_caller_targets",
    "C28_projected"
   ],
   "note": "Exact for all overlays and iteration orders, including the error path; the projected form under idempotent symlink resolution."
  },
  {
   "property": "C29",
   "status": "proved",
   "theorems": [
    "C29_total_preorder",
    "C29_agrees_with_numbers",
    "C29_invalid_lowest",
    "C29_characters",
    "C29_not_a_version"
   ],
   "note": ""
  },
  {
   "property": "C30",
   "status": "partial",
   "theorems": [
    "C30_merge_sums",
    "C30_shared_refuted",
    "C30_command",
    "C30_grouping",
    "C30_order",
    "C30_reading",
    "C30_command_exact"
   ],
   "note": "Proved for all profiles held in separate slices and for the whole merge command, including grouping and order; refuted when one profile slice is passed to Merge twice (Merge works in place)."
  },
  {
   "property": "C31",
   "status": "partial",
   "theorems": [
    "C31_clean_restores",
    "C31_clean_refuted",
    "C31_directives",
    "C31_directive_block"
   ],
   "note": "Proved for every history of marked insertions and replacements with fresh labels, anchors outside marked regions, texts without marks and replaced text without a comment end; refuted without those conditions (same mark twice loses the original, replaced text holding */ is cut, inserted /*old:*/ comes back)."
  },
  {
   "property": "C32",
   "status": "partial",
   "theorems": [
    "C32_edit_file",
    "C32_apply_partial",
    "C32_apply_one_place",
    "C32_apply_refuted"
   ],
   "note": "Proved for EditFile and for one named block whose edits are in file order, do not overlap and carry no marks (C32_apply_partial; C32_apply_one_place gives conditions on the commands alone), for every parser. Refuted: a second block can move the first one's anchor, unnamed blocks are applied over themselves, replaced text holding */ is cut, a directive that does not end its line loses the rest, edits out of file order do not clear."
  },
  {
   "property": "C33",
   "status": "partial",
   "theorems": [
    "C33_exact_partial",
    "C33_prefix_complete",
    "C33_any",
    "C33_exact_refuted",
    "C33_prefix_refuted"
   ],
   "note": "Exact matching proved for patterns whose elements are `**`, a literal, or stars followed by a literal (and `*` where the path cannot run out); refuted otherwise: \"a*\" does not match \"ab\", \"a*b\" and \"a/*/b\" match \"a\". Prefix mode never misses a match (proved for all), but also accepts elements that merely begin with the pattern (refuted)."
  },
  {
   "property": "C34",
   "status": "partial",
   "theorems": [
    "C34_code_keeps_its_line_partial",
    "C34_multi_line_type_refuted"
   ],
   "note": "Proved for every file and every set of instrumented functions and variables: each surviving byte keeps its line when the texts of the variables' types are on one line and no removed & operator spans lines; refuted for multi-line types."
  },
  {
   "property": "C35",
   "status": "partial",
   "theorems": [
    "C35_unpatch_partial",
    "C35_unpatch_refuted",
    "C35_unpatched",
    "C35_patch_again"
   ],
   "note": "Unpatching restores all source lines in order but leaves an empty line per region (C35_unpatch_partial); it therefore never restores the file exactly (C35_unpatch_refuted, for every non-empty edit). Re-patching proved equal up to empty lines for every locator that goes by the non-empty lines. Conditions: lines without marks, ids without newline, * and <."
  },
  {
   "property": "C36",
   "status": "partial",
   "theorems": [
    "C36_only_package_variables_partial",
    "C36_only_package_variables_refuted"
   ],
   "note": "Proved for every function body unless a type parameter or `case v := <-ch` reuses the name of a package variable; refuted for those two (the local name is rewritten and the program no longer compiles). Variables of other packages (pkg.Var) are not modelled."
  },
  {
   "property": "C37",
   "status": "partial",
   "theorems": [
    "C37_exact_full_name",
    "C37_interface_method_refuted",
    "C37_generic_instance",
    "C37_declared_names_checked",
    "C37_known_name",
    "C37_unknown_name"
   ],
   "note": "Exact names and generic instances proved; refuted for interface methods: interfaceMapping is keyed by interface name only, so the name of one method finds whichever method was registered last."
  },
  {
   "property": "C38",
   "status": "partial",
   "theorems": [
    "C38_variable_interceptor_error",
    "C38_error_of_address_mock_by_name_refuted"
   ],
   "note": "Proved for the registration by pointer; refuted for MockByName of \"*v\", which drops the error (mock.go:71)."
  },
  {
   "property": "C39",
   "status": "proved",
   "theorems": [
    "C39_context_of_the_call"
   ],
   "note": ""
  },
  {
   "property": "C40",
   "status": "proved",
   "theorems": [
    "C40_semver_total_preorder",
    "C40_semver_agrees",
    "C40_characters",
    "C40_all_forms",
    "C40_not_a_version"
   ],
   "note": ""
  },
  {
   "property": "C41",
   "status": "partial",
   "theorems": [
    "C41_compose_order",
    "C41_aliases_partial",
    "C41_alias_order_refuted"
   ],
   "note": "Proved for the composition; the canonical map is order independent when every file named by several spellings is also named canonically; refuted otherwise (two symbolic links to one file)."
  },
  {
   "property": "C42",
   "status": "proved",
   "theorems": [
    "C42_read_last_override"
   ],
   "note": ""
  },
  {
   "property": "C43",
   "status": "partial",
   "theorems": [
    "C43_own_file_partial",
    "C43_clash_refuted"
   ],
   "note": "Proved for all sets of files that do not live under a root directory named like a mapped place (/GOROOT, /PROJECT, /GOPATH...); refuted for those."
  },
  {
   "property": "C44",
   "status": "partial",
   "theorems": [
    "C44_write_then_read",
    "C44_appended_refuted",
    "C44_bad_counts_refuted",
    "C44_mode"
   ],
   "note": "Writing then reading proved for all profiles; refuted for appended profiles (second mode line becomes a block) and for counts that do not parse (CRLF, overflow: silently 0)."
  },
  {
   "property": "C45",
   "status": "partial",
   "theorems": [
    "C45_edit_partial",
    "C45_edit_refuted",
    "C45_in_place",
    "C45_wrong_order"
   ],
   "note": "Proved whenever the edit changes the original; refuted when it does not: the earlier patch stays in the file."
  },
  {
   "property": "C46",
   "status": "partial",
   "theorems": [
    "C46_edit_at_place_partial",
    "C46_edit_at_place_refuted",
    "C46_places_partial",
    "C46_copy",
    "C46_directive",
    "C46_impossible",
    "C46_all_or_nothing"
   ],
   "note": "Proved for a block with one place and one edit. Refuted for several places: earlier insert_after lands before its anchor, edits before any place are dropped, mixed insert_before/insert_after go to one side, out-of-order places are written into each other's marks."
  },
  {
   "property": "C47",
   "status": "proved",
   "theorems": [
    "C47_names",
    "C47_identity",
    "C47_identity_unique",
    "C47_registered"
   ],
   "note": ""
  },
  {
   "property": "C48",
   "status": "partial",
   "theorems": [
    "C48_wanted_functions_partial",
    "C48_quotas",
    "C48_late_functions_refuted"
   ],
   "note": "Proved when everything is wanted, in the main package, or within the quotas; C48_quotas gives the exact set otherwise. Refuted beyond the quotas: the 17th mocked function of a file and the 97th of a package are not instrumented."
  },
  {
   "property": "C49",
   "status": "proved",
   "theorems": [
    "C49_packages",
    "C49_mode",
    "C49_main_modules"
   ],
   "note": ""
  },
  {
   "property": "C50",
   "status": "partial",
   "theorems": [
    "C50_additions_seen_partial",
    "C50_changes_unseen_refuted"
   ],
   "note": "Additions are always seen; refuted in general: the summed text has no separators, so mocking Do and It or DoIt gives the same key."
  },
  {
   "property": "C51",
   "status": "proved",
   "theorems": [
    "C51_notes_round_trip"
   ],
   "note": ""
  },
  {
   "property": "C52",
   "status": "partial",
   "theorems": [
    "C52_generated_names_distinct",
    "C52_info_variables",
    "C52_accessors_partial",
    "C52_accessors_refuted",
    "C52_accessors_declared",
    "C52_all_files"
   ],
   "note": "Numbered names proved distinct for all packages; accessors of variables proved distinct unless a test variable is itself named T_TestX (refuted: TestX and T_TestX share an accessor)."
  },
  {
   "property": "C53",
   "status": "proved",
   "theorems": [
    "C53_line_edits",
    "C53_plain_edits",
    "C53_beyond_the_file"
   ],
   "note": ""
  },
  {
   "property": "C54",
   "status": "partial",
   "theorems": [
    "C54_matching_partial",
    "C54_matching_refuted"
   ],
   "note": "Leftmost in-order matching and completeness proved for every node comparison; refuted: equal patch nodes are matched to the same source node."
  },
  {
   "property": "C55",
   "status": "partial",
   "theorems": [
    "C55_instructions_partial",
    "C55_instructions_refuted",
    "C55_unreadable"
   ],
   "note": "Well-formed instructions proved read as written; refuted: parse errors are dropped and the node is silently not patched."
  },
  {
   "property": "C56",
   "status": "partial",
   "theorems": [
    "C56_every_read_partial",
    "C56_every_read_refuted"
   ],
   "note": "Proved for the forms xgo looks at, including every shadowing by parameters, :=, var, const and type in blocks; refuted for case lists, communication clauses, names declared in if/for/switch headers, `for v := range v`, the third slice index, keys of map literals and indices inside assignment targets."
  },
  {
   "property": "C57",
   "status": "proved",
   "theorems": [
    "C57_references",
    "C57_accessors"
   ],
   "note": ""
  },
  {
   "property": "C58",
   "status": "partial",
   "theorems": [
    "C58_arguments",
    "C58_run_exec_partial",
    "C58_program_arguments_refuted",
    "C58_foreign_values_refuted",
    "C58_foreign_arguments_forwarded"
   ],
   "note": "Exact for build, test and setup (both directions), and for run and exec as long as foreign flags are written with \"=\"; refuted otherwise: xgo run -race main.go -v takes -v for itself, and a value starting with a dash after a foreign flag (-ldflags -v) is read as a flag. A bad value of --strace or --unified is a panic rather than an error (part of the specified meaning)."
  },
  {
   "property": "C59",
   "status": "partial",
   "theorems": [
    "C59_go_command",
    "C59_program_arguments",
    "C59_test_output_refuted",
    "C59_debug_package_refuted"
   ],
   "note": "Exact for build, run and test; refuted: xgo test -o x without -c drops -o; xgo run --debug -race ./a builds only \"-race\"."
  },
  {
   "property": "C60",
   "status": "partial",
   "theorems": [
    "C60_xgo_flags_words",
    "C60_flags_before_arguments",
    "C60_coverage_partial",
    "C60_coverage_refuted"
   ],
   "note": "Words of XGO_FLAGS proved; refuted: -cover in XGO_FLAGS and --cover are not noticed."
  },
  {
   "property": "C61",
   "status": "partial",
   "theorems": [
    "C61_packages_partial",
    "C61_packages_refuted"
   ],
   "note": "Proved for flags before packages when every flag without value is on the list in the code; refuted for other such flags (-short) and for flags after packages."
  },
  {
   "property": "C62",
   "status": "proved",
   "theorems": [
    "C62_file_patches"
   ],
   "note": ""
  },
  {
   "property": "C63",
   "status": "proved",
   "theorems": [
    "C63_rules_in_force",
    "C63_modules_agree"
   ],
   "note": ""
  },
  {
   "property": "C64",
   "status": "proved",
   "theorems": [
    "C64_selection",
    "C64_first_rule_decides"
   ],
   "note": ""
  },
  {
   "property": "C65",
   "status": "partial",
   "theorems": [
    "C65_loaded",
    "C65_main_module_refuted",
    "C65_other_packages_refuted"
   ],
   "note": "What is loaded is characterised exactly; refuted: it does not follow the matcher. Excluding a single name of the main module, or excluding it after including its functions, keeps the whole module from being loaded; a package excluded first is loaded all the same."
  },
  {
   "property": "C66",
   "status": "partial",
   "theorems": [
    "C66_setup_partial",
    "C66_history",
    "C66_nothing_to_do",
    "C66_reset_crash_refuted",
    "C66_deleted_copy_refuted",
    "C66_downgrade_refuted"
   ],
   "note": "Proved for retries of one revision until it ends, over any history of revisions. Refuted in general: a crash while --reset-instrument removes the old copy, or while a deleted copy is made again, leaves a revision file that still matches, and going back to the old xgo after a crashed upgrade finds the old revision; in each case the next run takes half a copy for a complete one."
  },
  {
   "property": "C67",
   "status": "partial",
   "theorems": [
    "C67_no_deadlock",
    "C67_terminates",
    "C67_quiet",
    "C67_success",
    "C67_error",
    "C67_no_error_partial",
    "C67_error_lost_refuted",
    "C67_sequential"
   ],
   "note": "Liveness, quietness, success and the meaning of errors are proved. That no error means all files copied is refuted for more than one worker: an error reported after the last file was sent is never received. What may be missing then is bounded: only failing files while fewer fail than there are workers, otherwise at most the queue and one per worker."
  },
  {
   "property": "C68",
   "status": "proved",
   "theorems": [
    "C68_copied",
    "C68_parents",
    "C68_once"
   ],
   "note": ""
  },
  {
   "property": "C69",
   "status": "partial",
   "theorems": [
    "C69_nearest_partial",
    "C69_none",
    "C69_sub_path_partial",
    "C69_sub_path_refuted",
    "C69_root_refuted",
    "C69_project_root_partial",
    "C69_project_root_refuted",
    "C69_slash_refuted",
    "C69_vendor_refuted"
   ],
   "note": "Proved for module roots other than \"/\" and project directories that name the directories below the root. Refuted: FindGoModDirSubPath gives the sub path reversed (two or more levels below the module; used by test-explorer); go.mod in \"/\" is not found; with the default project directory in a subdirectory of the module the project root becomes the working directory; a trailing slash or the vendor directory of a module looked up from below."
  },
  {
   "property": "C70",
   "status": "partial",
   "theorems": [
    "C70_module_partial",
    "C70_tab_refuted",
    "C70_quoted_refuted",
    "C70_package_partial",
    "C70_within"
   ],
   "note": "Proved for module directives written `module path` with a space; refuted for a tab after module, quoted paths and the block form, which go accepts."
  },
  {
   "property": "C71",
   "status": "proved",
   "theorems": [
    "C71_modules",
    "C71_metadata",
    "C71_packages"
   ],
   "note": "Only the module list, packages, replacements and annotations of the format of go mod vendor are specified; workspace files (## workspace) are read as unknown annotations."
  },
  {
   "property": "C72",
   "status": "partial",
   "theorems": [
    "C72_added",
    "C72_effective_partial",
    "C72_once",
    "C72_effective_refuted"
   ],
   "note": "Added lines, idempotence and effectiveness for absent patterns are proved; refuted that the pattern is always in force: a comment, a negation or a longer pattern that contains it counts as present."
  },
  {
   "property": "C73",
   "status": "partial",
   "theorems": [
    "C73_import_partial",
    "C73_one_line",
    "C73_lines",
    "C73_declined",
    "C73_import_refuted"
   ],
   "note": "Proved that no line moves for every file, and the place for files whose header does not say \"package \" and whose clause has no comment on its line; refuted otherwise (the import ends up in a comment, or in the middle of a later line after a stray carriage return)."
  },
  {
   "property": "C74",
   "status": "proved",
   "theorems": [
    "C74_batches"
   ],
   "note": ""
  },
  {
   "property": "C75",
   "status": "partial",
   "theorems": [
    "C75_command_partial",
    "C75_word_exact",
    "C75_word_refuted"
   ],
   "note": "Exact for single words; refuted for words with quotes, |, ?, [, backquote or a leading # or ~ and no character that makes xgo quote."
  },
  {
   "property": "C76",
   "status": "partial",
   "theorems": [
    "C76_tests",
    "C76_others_refuted",
    "C76_names_partial",
    "C76_names_refuted",
    "C76_run_partial",
    "C76_run_refuted"
   ],
   "note": "Proved that every test of a merged package is run once; names are distinct and the binary builds if no test is called like another with _k appended. Refuted: TestA and TestA_1 in one package and TestA in another give a map literal with equal keys (no build); benchmarks, fuzz targets and examples of merged packages are not run; -run ^TestA$ runs TestA of the first package only."
  },
  {
   "property": "C77",
   "status": "partial",
   "theorems": [
    "C77_reported_partial",
    "C77_others",
    "C77_directory_partial",
    "C77_directory_refuted"
   ],
   "note": "Proved under distinct names (see C76), for tests that are not parallel; refuted for parallel tests, which run in the directory of the last package."
  },
  {
   "property": "C78",
   "status": "partial",
   "theorems": [
    "C78_no_deadlock",
    "C78_terminates",
    "C78_loaded_partial",
    "C78_kept_partial",
    "C78_unreadable_refuted"
   ],
   "note": "No deadlock, termination, and the exact result when every file can be read are proved for every schedule. Refuted when a file cannot be read or is larger than MaxFileSize: the reader calls wg.Done before setting f.Error (load.go:114-115), so the file may be returned without error and without syntax (which is then dereferenced). C78_kept_partial bounds the damage: readable files are always right."
  },
  {
   "property": "C79",
   "status": "partial",
   "theorems": [
    "C79_replaced_function_instrumented_partial",
    "C79_replaced_function_instrumented_refuted"
   ],
   "note": "Proved for functions, generic instances, variables of a known type, own methods of types and of values reached by :=, package variables, calls with one result, fields, conversions, new, make, composite literals and aliases, when locals hide nothing and all files of a package agree on the import names used. Refuted for promoted methods, x, err := f(), var x T and parameters, variables holding a function, fields declared as a, b T, types over error, rune, any, results of methods, and types read in a file with other imports."
  },
  {
   "property": "C80",
   "status": "partial",
   "theorems": [
    "C80_no_other_function_partial",
    "C80_fragment_of_go",
    "C80_no_other_function_refuted"
   ],
   "note": "Same fragment: exactly the right target or nothing. Refuted: type A B with its own method records the method of B; a parameter hiding an outer := variable; files of a package that import different packages under one name."
  },
  {
   "property": "C81",
   "status": "partial",
   "theorems": [
    "C81_import_names_partial",
    "C81_import_names_refuted"
   ],
   "note": "Proved when names are written, packages loaded, or named after their directory (or the one above a version). Refuted: gopkg.in/yaml.v3."
  },
  {
   "property": "C82",
   "status": "proved",
   "theorems": [
    "C82_in_order_once",
    "C82_send",
    "C82_poll",
    "C82_unpolled_sender_waits",
    "C82_ids_unique",
    "C82_get"
   ],
   "note": "All interleavings of calls. Also proved: with no poll a call sending more than 100 events never returns (page closed while a run goes on: the run blocks)."
  },
  {
   "property": "C83",
   "status": "partial",
   "theorems": [
    "C83_all_chosen_tests_run_partial",
    "C83_single_test_alone_partial",
    "C83_several_tests",
    "C83_only_chosen_tests_run_refuted",
    "C83_empty_file_runs_nothing",
    "C83_command_of_test",
    "C83_command_of_file",
    "C83_command_of_subtest"
   ],
   "note": "Selection of all chosen tests is proved for names without the characters the code does not escape; that no other test is run is proved for a single top-level test, and refuted for files with several tests, for subtests and for special characters; the exact set run for a file is proved."
  },
  {
   "property": "C84",
   "status": "proved",
   "theorems": [
    "C84_packages_run",
    "C84_items_marked"
   ],
   "note": "All trees; sort.Slice is taken as an arbitrary permutation of the children."
  },
  {
   "property": "C85",
   "status": "partial",
   "theorems": [
    "C85_cases_listed",
    "C85_no_empty_nodes",
    "C85_all_tests_shown_partial",
    "C85_only_tests_shown_refuted"
   ],
   "note": "Cases listed are characterised exactly; all tests of the go command are shown; refuted: only tests are shown (TestMain, methods, names like Testify are listed too)."
  },
  {
   "property": "C86",
   "status": "partial",
   "theorems": [
    "C86_no_item_left_running",
    "C86_events_unchanged",
    "C86_trace_events_unchanged",
    "C86_success_only_if_passed_refuted",
    "C86_failure_shown",
    "C86_single_test"
   ],
   "note": "The single process runs: output in order, pipe not modelled here (see C87). Refuted: shown as passed only if passed (items of a package that does not compile)."
  },
  {
   "property": "C88",
   "status": "partial",
   "theorems": [
    "C88_package_events",
    "C88_test_events",
    "C88_subtest_events",
    "C88_build_failure",
    "C88_other_output_refuted",
    "C88_other_module_refuted"
   ],
   "note": "JSON decoding is a parameter; refuted for other lines of output (the explorer crashes) and for packages of another module with a common prefix."
  },
  {
   "property": "C87",
   "status": "partial",
   "theorems": [
    "C87_lines_as_written",
    "C87_run_comes_to_rest",
    "C87_all_delivered",
    "C87_refused_output_refuted",
    "C87_stderr_late_refuted"
   ],
   "note": "Termination without conditions; delivery if lines are shorter than 64K and the builder accepts the output. Refuted otherwise: the run blocks for ever; output on stderr can come after the end; what follows the last newline of stderr is never delivered (the theorem gives exactly the whole lines)."
  },
  {
   "property": "C89",
   "status": "proved",
   "theorems": [
    "C89_read_as_written",
    "C89_errors_reported",
    "C89_line_read",
    "C89_string_reads_back",
    "C89_dropped_text"
   ],
   "note": "Both directions. TrimSpace is modelled for ASCII."
  },
  {
   "property": "C90",
   "status": "partial",
   "theorems": [
    "C90_result",
    "C90_succeeds",
    "C90_no_silent_failure",
    "C90_any_order",
    "C90_untouched",
    "C90_again",
    "C90_stopped",
    "C90_write_failure_refuted",
    "C90_patching"
   ],
   "note": "cfg.Copy is not modelled here. Refuted: a file patched in place is lost if writing it fails. The repetition assumes that patches are stable (C32)."
  },
  {
   "property": "C91",
   "status": "partial",
   "theorems": [
    "C91_substitution",
    "C91_any_order",
    "C91_any_order_refuted",
    "C91_environment",
    "C91_actions",
    "C91_directory"
   ],
   "note": "filepath.Clean and Join of the working directory are not modelled. Refuted: with a dollar sign in a value the result depends on the order of the map."
  },
  {
   "property": "C92",
   "status": "partial",
   "theorems": [
    "C92_returned_is_finished_partial",
    "C92_returned_is_finished_refuted",
    "C92_finished_is_reused",
    "C92_existing_is_checked",
    "C92_can_be_repeated_partial",
    "C92_can_be_repeated_refuted",
    "C92_worktree_partial",
    "C92_worktree_refuted"
   ],
   "note": "Holds where removing a directory removes the marker last (C92_returned_is_finished_partial). Refuted otherwise: after one call killed before it removes the marker and one killed while it removes the directory, a Go root without any files is returned (C92_returned_is_finished_refuted). A call killed between mkdir and the marker leaves an empty directory on which every later call fails (C92_can_be_repeated_refuted). The marker is in the commit, so every worktree has it (C92_worktree_refuted)."
  },
  {
   "property": "C93",
   "status": "proved",
   "theorems": [
    "C93_full_version",
    "C93_latest_patch",
    "C93_latest_prerelease",
    "C93_none_found",
    "C93_result",
    "C93_page"
   ],
   "note": "Proved for all versions and pages. An entry of the page that begins like a patch release but is no version can be returned, when the page has no proper one (C93_result says it begins with what was asked)."
  },
  {
   "property": "C94",
   "status": "proved",
   "theorems": [
    "C94_shown_command",
    "C94_plain_words"
   ],
   "note": "Proved for all words."
  },
  {
   "property": "C95",
   "status": "partial",
   "theorems": [
    "C95_reads_all_partial",
    "C95_ends_partial",
    "C95_first_decides",
    "C95_ends_refuted"
   ],
   "note": "Holds for files that end well (C95_reads_all_partial, C95_ends_partial). Refuted for every file that is cut or broken after its first stack: the call never returns and its memory grows without bound (C95_ends_refuted)."
  },
  {
   "property": "C96",
   "status": "proved",
   "theorems": [
    "C96_same",
    "C96_shown_iff_whole"
   ],
   "note": "Proved."
  },
  {
   "property": "C97",
   "status": "partial",
   "theorems": [
    "C97_rows",
    "C97_heads",
    "C97_detail_is_of_head_partial",
    "C97_detail_is_of_head_refuted",
    "C97_null_hides_all_refuted",
    "C97_names_are_text"
   ],
   "note": "Proved for traces without null entries, except that with several stacks the details of a root say <root> and its item <root_i> (C97_detail_is_of_head_refuted). With a null entry anywhere the page has no list and the error is dropped (C97_null_hides_all_refuted)."
  },
  {
   "property": "C98",
   "status": "proved",
   "theorems": [
    "C98_cost",
    "C98_none"
   ],
   "note": "Proved for exact division and times whose difference fits; the program divides float64 numbers."
  },
  {
   "property": "C99",
   "status": "partial",
   "theorems": [
    "C99_ports",
    "C99_watch_bound",
    "C99_watch_partial",
    "C99_watch_refuted",
    "C99_find",
    "C99_find_refuted"
   ],
   "note": "Ports: proved. The announcement: proved when no attempt fails after the timeout (C99_watch_partial); refuted otherwise, for every starting port: announced twice, first for a port of someone else (C99_watch_refuted). The search for a free port answers 65536 when all are served (C99_find_refuted)."
  },
  {
   "property": "C100",
   "status": "partial",
   "theorems": [
    "C100_host",
    "C100_probe_partial",
    "C100_probe_refuted",
    "C100_url"
   ],
   "note": "Proved, except that for IPv6 the address is put in brackets twice before it is probed, so that the probe never succeeds (C100_probe_refuted)."
  },
  {
   "property": "C101",
   "status": "partial",
   "theorems": [
    "C101_unzip_confined",
    "C101_unzip_complete",
    "C101_unzip_exact",
    "C101_extract_tar_gz_refuted"
   ],
   "note": "Proved for unzip (no symbolic links: unzip makes none). Refuted for upgrade.ExtractTarGz, which joins the name unchecked (C101_extract_tar_gz_refuted)."
  },
  {
   "property": "C102",
   "status": "partial",
   "theorems": [
    "C102_all_or_nothing",
    "C102_installed_stays",
    "C102_returned",
    "C102_platform_partial",
    "C102_can_install",
    "C102_unlisted",
    "C102_concurrent_refuted",
    "C102_platform_refuted"
   ],
   "note": "Proved, trusting that tar and unzip notice a damaged archive and that rename is atomic. Refuted: the platform is not part of the directory, so that a call for another platform returns the wrong SDK (C102_platform_refuted); the later of two calls at once fails although the SDK is installed (C102_concurrent_refuted)."
  },
  {
   "property": "C103",
   "status": "proved",
   "theorems": [
    "C103_one_directory_per_version",
    "C103_archive",
    "C103_listed_versions"
   ],
   "note": "Proved; blanks are ASCII."
  },
  {
   "property": "C104",
   "status": "proved",
   "theorems": [
    "C104_version",
    "C104_version_again",
    "C104_flags"
   ],
   "note": "Proved."
  },
  {
   "property": "C105",
   "status": "partial",
   "theorems": [
    "C105_fresh",
    "C105_history_partial",
    "C105_flags_refuted",
    "C105_killed_refuted",
    "C105_killed_silent_refuted"
   ],
   "note": "Proved for forced runs and runs that find no copy or an older one, from any directory, and for histories without a kill during copying, when an option is on. Refuted otherwise: the options of an earlier run stay in force in a run without options (C105_flags_refuted); a run killed while it copied, after core/version.go, leaves a copy that later runs take for complete (C105_killed_refuted, C105_killed_silent_refuted)."
  },
  {
   "property": "C106",
   "status": "proved",
   "theorems": [
    "C106_repair",
    "C106_repair_unique"
   ],
   "note": "Proved."
  },
  {
   "property": "C107",
   "status": "proved",
   "theorems": [
    "C107_goroot",
    "C107_native"
   ],
   "note": "Proved (unix)."
  },
  {
   "property": "C108",
   "status": "partial",
   "theorems": [
    "C108_environment",
    "C108_output",
    "C108_failure_partial",
    "C108_output_refuted",
    "C108_mock_rule_refuted",
    "C108_crlf_refuted"
   ],
   "note": "Proved for the environment, for outputs that end in a line feed, and for failures of Run and of builders. Refuted: the plain function cmd.Output never returns an error (C108_output_refuted), so that the explorer takes a missing xgo for one that supports mock rules (C108_mock_rule_refuted); of a final CR LF the CR stays (C108_crlf_refuted)."
  },
  {
   "property": "C109",
   "status": "partial",
   "theorems": [
    "C109_linker_partial",
    "C109_cross_refuted"
   ],
   "note": "Proved when GOOS is unset or darwin; refuted when the user cross-compiles: GOOS of the user decides about tools that are built for this machine (C109_cross_refuted)."
  },
  {
   "property": "C110",
   "status": "partial",
   "theorems": [
    "C110_version",
    "C110_string",
    "C110_refused",
    "C110_experiment_refuted"
   ],
   "note": "Proved for releases, betas, release candidates. Refuted for toolchains with experiments: their mark is taken for a part of the system (C110_experiment_refuted)."
  },
  {
   "property": "C111",
   "status": "partial",
   "theorems": [
    "C111_bounds_partial",
    "C111_patch_refuted",
    "C111_unknown"
   ],
   "note": "Proved on the first two numbers; refuted for the third: it is not compared (C111_patch_refuted)."
  },
  {
   "property": "C112",
   "status": "partial",
   "theorems": [
    "C112_module_partial",
    "C112_found",
    "C112_order_refuted"
   ],
   "note": "Nearest module proved; the path below it is proved to lead back only when it is at most one directory deep, and refuted beyond: its components are in reverse order (C112_order_refuted)."
  },
  {
   "property": "C113",
   "status": "partial",
   "theorems": [
    "C113_files_partial",
    "C113_relative_partial",
    "C113_sibling_refuted",
    "C113_xtest_refuted"
   ],
   "note": "Membership proved. Refuted: external test files are left out (C113_xtest_refuted), a relative listing has the files of siblings whose name extends the directory's (C113_sibling_refuted)."
  },
  {
   "property": "C114",
   "status": "partial",
   "theorems": [
    "C114_config_partial",
    "C114_unknown_keys",
    "C114_not_an_object",
    "C114_bypass_refuted"
   ],
   "note": "Proved except for bypass_go_flags: \"false\", which is taken for true (C114_bypass_refuted)."
  },
  {
   "property": "C115",
   "status": "partial",
   "theorems": [
    "C115_env_partial",
    "C115_only",
    "C115_number_refuted",
    "C115_null_refuted"
   ],
   "note": "Proved for texts, truth values and integers below a million; refuted from a million on, where the exponent is written (C115_number_refuted), and for null, which gives <nil> (C115_null_refuted). Arrays, objects and fractions are not modelled."
  },
  {
   "property": "C116",
   "status": "partial",
   "theorems": [
    "C116_run",
    "C116_coverage_partial",
    "C116_coverage_refuted",
    "C116_debug",
    "C116_args_refuted"
   ],
   "note": "Program, flags and arguments proved. Refuted: --coverage does not switch on what the file disables (C116_coverage_refuted); POST /run and /debug drop the arguments of file and command line (C116_args_refuted)."
  },
  {
   "property": "C117",
   "status": "partial",
   "theorems": [
    "C117_tools",
    "C117_unknown_flag",
    "C117_no_dashes_refuted"
   ],
   "note": "Proved with -- before the tool, the way xgo calls it; refuted without: the tool is dropped and its first argument is run (C117_no_dashes_refuted)."
  },
  {
   "property": "C118",
   "status": "partial",
   "theorems": [
    "C118_insert_partial",
    "C118_others",
    "C118_short_refuted",
    "C118_func_refuted"
   ],
   "note": "Proved for packages with more than three slashes; refuted for the others, which are never changed (C118_short_refuted), and for --func, always an error (C118_func_refuted)."
  },
  {
   "property": "C119",
   "status": "partial",
   "theorems": [
    "C119_found_partial",
    "C119_same_refuted",
    "C119_parent_refuted"
   ],
   "note": "Proved when no other invocation clears a directory of mine or above; refuted for the same directory (C119_same_refuted) and for one above (C119_parent_refuted)."
  },
  {
   "property": "C120",
   "status": "proved",
   "theorems": [
    "C120_received_in_order",
    "C120_end_at_most_once"
   ],
   "note": "Proved for every interleaving and every cutting of the output into writes."
  },
  {
   "property": "C121",
   "status": "partial",
   "theorems": [
    "C121_finite",
    "C121_all_received_partial",
    "C121_long_line_refuted",
    "C121_last_line_refuted",
    "C121_end_before_line_refuted"
   ],
   "note": "Every schedule is finite, and where nothing more can happen all complete lines, the error and the end have been received, if no line has 64 KiB or more. Refuted: a line of 64 KiB blocks the run for ever (C121_long_line_refuted), a last line without a newline is never received (C121_last_line_refuted), and the end may come before lines (C121_end_before_line_refuted)."
  },
  {
   "property": "C122",
   "status": "partial",
   "theorems": [
    "C122_data",
    "C122_no_data",
    "C122_errors",
    "C122_preflight",
    "C122_cors",
    "C122_status_partial",
    "C122_panic_refuted",
    "C122_type_refuted"
   ],
   "note": "Proved except for panics with an error, which are answered by 200 and null (C122_panic_refuted), and for the type of errors, set too late (C122_type_refuted)."
  },
  {
   "property": "C123",
   "status": "partial",
   "theorems": [
    "C123_start",
    "C123_session_partial",
    "C123_no_body_refuted",
    "C123_detail",
    "C123_open_refuted"
   ],
   "note": "Proved for starting and showing; for polling and destroying if there is a body. Refuted without: 200 and null (C123_no_body_refuted); opening without a file opens an editor (C123_open_refuted)."
  },
  {
   "property": "C124",
   "status": "partial",
   "theorems": [
    "C124_one_component",
    "C124_distinct",
    "C124_cut_refuted"
   ],
   "note": "One component, bounded and distinct: proved, for md5 any function to hexadecimal digits. Valid UTF-8: refuted (C124_cut_refuted)."
  },
  {
   "property": "C125",
   "status": "partial",
   "theorems": [
    "C125_apart_partial",
    "C125_share_refuted",
    "C125_outside_refuted"
   ],
   "note": "Proved for paths of letters, digits, . _ - and characters beyond ASCII; refuted for others: shared (C125_share_refuted) and outside (C125_outside_refuted)."
  },
  {
   "property": "C126",
   "status": "partial",
   "theorems": [
    "C126_last_refresh_partial",
    "C126_clear_refuted"
   ],
   "note": "Proved for the last refresh; clearing leaves what is shown (C126_clear_refuted)."
  },
  {
   "property": "C127",
   "status": "partial",
   "theorems": [
    "C127_text_partial",
    "C127_written",
    "C127_imports",
    "C127_pair_refuted",
    "C127_internal_refuted"
   ],
   "note": "Proved for values of a single type; a call of several results gives the first variable a list of types, which is no type (C127_pair_refuted), and a package may be imported that the file may not import (C127_internal_refuted)."
  },
  {
   "property": "C128",
   "status": "partial",
   "theorems": [
    "C128_instrumented",
    "C128_passed_on",
    "C128_no_go",
    "C128_once_partial",
    "C128_status",
    "C128_stdin_refuted",
    "C128_slash_refuted",
    "C128_twice_refuted",
    "C128_two_shadows_refuted"
   ],
   "note": "Proved for a shadow in one directory that PATH spells cleanly, except for the input. Refuted: the command gets no standard input (C128_stdin_refuted); with a slash at the end of the entry every go command fails (C128_slash_refuted); with the directory in two spellings, or two shadows, processes are started without end (C128_twice_refuted, C128_two_shadows_refuted)."
  },
  {
   "property": "C129",
   "status": "partial",
   "theorems": [
    "C129_builtin",
    "C129_runs_partial",
    "C129_confined_partial",
    "C129_by_name_refuted"
   ],
   "note": "Proved when xgo is called by an absolute path. Refuted when it is called by its name: a file of the current directory makes xgo run the program of that name from PATH (C129_by_name_refuted)."
  },
  {
   "property": "C130",
   "status": "partial",
   "theorems": [
    "C130_now",
    "C130_sleep",
    "C130_runtime_sleep",
    "C130_restored",
    "C130_again",
    "C130_line_refuted"
   ],
   "note": "Proved for texts without marks, in which the function is found once and, for the runtime's directive, nothing follows on its line; otherwise that is lost by cleaning (C130_line_refuted)."
  }
 ]
}