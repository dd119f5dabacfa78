(** * The clock functions of an instrumented GOROOT (instrument/instrument_runtime/time.go) *)
From Coq Require Import Ascii String List Arith Bool Lia.
From Verif Require Import M_Str M_Patch M_ApplyPatches.
Import ListNotations.
Open Scope nat_scope.
Open Scope list_scope.

(** instrument/constants/constants.go:40-41 *)
Definition XGO_REAL_NOW := #"XgoRealNow".
Definition XGO_REAL_SLEEP := #"XgoRealSleep".
(** strings.TrimSuffix *)
Definition trim_suffix (s p : bytes) : bytes := if has_suffix s p then firstn (length s - length p) s else s.
(** time.go:20-44: the edit of src/time/time.go; None: panic, an error of EditFile (patch.go:18-25) *)
Definition now_anchor := #"func Now() Time {".
Definition end_anchor : bytes := newline :: #"}" ++ [newline].
Definition edit_time_now (content : bytes) : option bytes :=
  match index content now_anchor with
  | None => None
  | Some idx =>
      let base := idx + length now_anchor in
      match index (skipn base content) end_anchor with
      | None => None
      | Some e =>
          let endIdx := e + (base + length end_anchor) in
          let body := slice content idx endIdx in
          let xgoBody := trim_suffix (replace_all (S (length body)) body now_anchor (#"func " ++ XGO_REAL_NOW ++ #"() Time {")) [newline] in
          let marked := #"/*<begin add_xgo_real_time_now>*/" ++ xgoBody ++ #"/*<end add_xgo_real_time_now>*/" in
          Some (content ++ if has_suffix content [newline] then marked else newline :: marked)
      end
  end.
(** time.go:53-64: the edit of src/time/sleep.go *)
Definition sleep_anchor := #"func Sleep(d Duration)".
Definition edit_time_sleep (content : bytes) : option bytes :=
  match index content sleep_anchor with
  | None => None
  | Some idx => Some (firstn idx content ++ #"/*<begin xgo_time_sleep>*/" ++ #"/*old:" ++ sleep_anchor ++ #"*/"
                      ++ (#"func " ++ XGO_REAL_SLEEP ++ #"(d Duration);func /*xgo_instrumented*/Sleep(d Duration){ " ++ XGO_REAL_SLEEP ++ #"(d); }")
                      ++ #"/*<end xgo_time_sleep>*/" ++ skipn (idx + length sleep_anchor) content)
  end.
(** time.go:73-83: the edit of src/runtime/time.go *)
Definition link_anchor := #"//go:linkname timeSleep time.Sleep".
Definition edit_runtime_sleep (content : bytes) : option bytes :=
  match index content link_anchor with
  | None => None
  | Some idx => Some (firstn idx content ++ (#"/*<next-line-original xgo_runtime_time_linkname>" ++ link_anchor ++ #"</next-line-original>*/" ++ [newline])
                      ++ (#"//go:linkname timeSleep time." ++ XGO_REAL_SLEEP) ++ skipn (idx + length link_anchor) content)
  end.
