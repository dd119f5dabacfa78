(** * Model of core.ParseFuncName (runtime/core/func.go:106-192). *)
From Coq Require Import Ascii String List Arith Bool Lia.
From Verif Require Import M_Str.
Import ListNotations.
Open Scope char_scope.

(** The six results: pkgPath, recvName, recvPtr, typeGeneric, funcGeneric, funcName. *)
Record parsed := Parsed {
  pkg_path : bytes; recv_name : bytes; recv_ptr : bool;
  type_generic : bytes; func_generic : bytes; func_name : bytes
}.

(** strings.LastIndex(s, "c") as an integer, -1 being None. *)
Definition last_index (c : ascii) (s : bytes) : option nat := option_map (fun ab => length (fst ab)) (cut_last c s).
Definition idx_lt (a : nat) (b : option nat) : bool := match b with None => false | Some b => Nat.ltb a b end.

Definition drop_last (s : bytes) : bytes := firstn (length s - 1) s.

(** func.go:109-118 and 149-159: the trailing [...]; None: invalid. *)
Definition cut_generic (s : bytes) : option (bytes * bytes) :=
  if has_suffix s ["]"]
  then match cut_last "[" s with
       | None => None
       | Some (a, b) => Some (drop_last b, a)
       end
  else Some ([], s).

(** func.go:106-192.  None: a run-time panic (the index expression of line 141
    when "(" is the first byte). *)
Definition parse_func_name (full : bytes) : option parsed :=
  let sep := last_index "/" full in
  (* func generic, 109-118 *)
  match cut_generic full with
  | None => Some (Parsed [] [] false [] [] [])
  | Some (fgen, prf) =>
      (* func name, 120-126 *)
      match cut_last "." prf with
      | None => Some (Parsed [] [] false [] fgen prf)
      | Some (prgp, fname) =>
          (* receiver parentheses, 131-147 *)
          match (if has_suffix prgp [")"]
                 then match cut_last "(" prgp with
                      | None => Some (inl tt)
                      | Some (a, b) =>
                          match a with
                          | [] => None
                          | _ :: _ => if has_suffix a ["."] then Some (inr (true, drop_last b, drop_last a)) else Some (inl tt)
                          end
                      end
                 else Some (inr (false, prgp, []))) with
          | None => None
          | Some (inl tt) => Some (Parsed [] [] false [] fgen fname)
          | Some (inr (paren, prg, pkg0)) =>
              (* receiver generic, 149-159 *)
              match cut_generic prg with
              | None => Some (Parsed pkg0 [] false [] fgen fname)
              | Some (tgen, pkg_recv) =>
                  let star pkg r :=
                    match r with
                    | "*" :: r' => Some (Parsed pkg r' true tgen fgen fname)
                    | _ => Some (Parsed pkg r false tgen fgen fname)
                    end in
                  if paren then star pkg0 pkg_recv
                  else
                    (* 163-183 *)
                    match cut_last "." pkg_recv with
                    | None => Some (Parsed pkg_recv [] false tgen fgen fname)
                    | Some (a, b) =>
                        let dot := length a in
                        let sep' := if idx_lt dot sep && containsc "/" tgen then last_index "/" pkg_recv else sep in
                        if idx_lt dot sep' then Some (Parsed pkg_recv [] false tgen fgen fname)
                        else star a b
                    end
              end
          end
      end
  end.
