(** * Model of the handlers built from replacements, recorders and interceptors
    (runtime/internal/trap/build.go, object.go, mock.go, record.go, var.go).

    Go values are numbers, errors, pointers or nil, kept in typed cells; a pointer to
    a parameter or result (the elements of [args] and [results] in the code) is the
    index of its cell.  User code (replacements, recorders, interceptors) is an
    arbitrary function of the values it is given and of the store. *)
From Coq Require Import List Arith Bool Lia.
From Verif Require Import M_Str.
Import ListNotations.

(** reflect.Type.  Simplification: types are equal or different; assignability of
    different types is not modelled (reflect requires it; the code compares with ==). *)
Inductive ty := TBase (n : nat) | TErr | TCtx | TPtr (t : ty).
Lemma ty_dec (a b : ty) : {a = b} + {a <> b}. Proof. decide equality. apply Nat.eq_dec. Defined.
Definition ty_eqb (a b : ty) : bool := if ty_dec a b then true else false.
Record ftype := FT { f_in : list ty; f_out : list ty; f_variadic : bool }.

Inductive value := VNil | VNum (n : nat) | VErr (e : nat) | VPtr (l : nat).
Definition cell := (ty * value)%type.
Definition store := list cell.
Definition get (s : store) (l : nat) : option cell := nth_error s l.
Fixpoint put (s : store) (l : nat) (v : value) : store :=
  match s, l with
  | [], _ => []
  | (t, _) :: r, 0 => (t, v) :: r
  | c :: r, S l => c :: put r l v
  end.

Inductive pval := PRuntime | PUser (n : nat) | PErr (e : nat).
Inductive out (A : Type) := Ret (a : A) (s : store) | Panic (p : pval) (s : store).
Arguments Ret {A}. Arguments Panic {A}.

(** ** Type checks *)
Inductive match_result := Match | Mismatch | MatchPanic.

(** object.go:172-178: the loop over the inputs; reflect's In panics out of range. *)
Fixpoint in_loop (fuel i base : nat) (a b : list ty) : match_result :=
  match fuel with
  | 0 => Match
  | S n =>
      match nth_error a (i + base), nth_error b i with
      | Some ta, Some tb => if ty_eqb ta tb then in_loop n (S i) base a b else Mismatch
      | _, _ => MatchPanic
      end
  end.
(** object.go:159-192 checkFuncTypeMatch. *)
Definition check_func_type_match (a b : ftype) (skip_first : bool) : match_result :=
  let base := if skip_first then 1 else 0 in
  let na := length (f_in a) in
  if negb (na =? length (f_in b) + base) then Mismatch
  else match in_loop na 0 base (f_in a) (f_in b) with
       | Match =>
           if negb (length (f_out a) =? length (f_out b)) then Mismatch
           else in_loop (length (f_out a)) 0 0 (f_out a) (f_out b)
       | r => r
       end.

Inductive accept := Accepted | Rejected.
(** mock.go:139-152 (pushMockReplacer, function case): the types must be identical. *)
Definition patch_accepts (target replacer : ftype) : accept :=
  if list_eq_dec ty_dec (f_in target) (f_in replacer) then
    if list_eq_dec ty_dec (f_out target) (f_out replacer) then
      if Bool.eqb (f_variadic target) (f_variadic replacer) then Accepted else Rejected
    else Rejected
  else Rejected.
(** mock.go:278-284 (pushMockReplacerByName, function case; getFuncByName returns no
    receiver): the declared type, receiver included, against the replacement. *)
Definition patch_by_name_accepts (target replacer : ftype) : accept :=
  match check_func_type_match target replacer false with Match => Accepted | _ => Rejected end.
(** mock.go:309-327 (pushMockReplacerMethodByName; getMethodByName always returns a
    receiver).  [target] is the method expression's type, receiver first. *)
Definition patch_method_by_name_accepts (target replacer : ftype) : accept :=
  match check_func_type_match target replacer true with Match => Accepted | _ => Rejected end.

(** mock.go:371-397 checkVarType for a variable of type t; None: panic. *)
Definition check_var_type (t : ty) (replacer : ftype) : option bool :=
  match check_func_type_match (FT [] [t] false) replacer false with
  | Match => Some false
  | MatchPanic => None
  | Mismatch =>
      match check_func_type_match (FT [] [TPtr t] false) replacer false with
      | Match => Some true
      | _ => None
      end
  end.

(** object.go:137-156 resolveArgTypes: per parameter, by value (false) or by pointer. *)
Fixpoint resolve_arg_types (params want : list ty) : option (list bool) :=
  match params, want with
  | [], [] => Some []
  | p :: params, w :: want =>
      if ty_eqb p w then option_map (cons false) (resolve_arg_types params want)
      else if ty_eqb p (TPtr w) then option_map (cons true) (resolve_arg_types params want)
      else None
  | _, _ => None
  end.
(** record.go:236-254 checkVarRecorderType; None: panic. *)
Definition check_var_recorder_type (t : ty) (rec : ftype) : option (list bool * bool) :=
  match resolve_arg_types (f_in rec) [t] with
  | Some r => Some (r, false)
  | None => option_map (fun r => (r, true)) (resolve_arg_types (f_in rec) [TPtr t])
  end.
Definition ftype_eqb (a b : ftype) : bool := match patch_accepts a b with Accepted => true | Rejected => false end.
(** record.go:17-67 pushRecorder, variable case: None is a panic; Some isPtr: the
    table the recorder is pushed to. *)
Definition push_var_recorder (t : ty) (pre post : option ftype) : option bool :=
  match pre, post with
  | None, None => None
  | _, _ =>
      if match pre, post with Some a, Some b => negb (ftype_eqb a b) | _, _ => false end then None
      else
        match (match pre with Some a => option_map snd (check_var_recorder_type t a) | None => Some false end),
              (match post with Some b => option_map snd (check_var_recorder_type t b) | None => Some false end) with
        | Some pre_ptr, Some post_ptr =>
            match pre, post with
            | Some _, Some _ => if Bool.eqb pre_ptr post_ptr then None else Some pre_ptr
            | _, _ => Some pre_ptr
            end
        | _, _ => None
        end
  end.

(** ** Calls of user functions through reflect *)
Definition user_fn := list value -> store -> out (list value).

(** reflect.Value.Call / CallSlice: the argument types must be the parameter types. *)
Definition reflect_call (t : ftype) (f : user_fn) (args : list cell) (s : store) : out (list value) :=
  if list_eq_dec ty_dec (map fst args) (f_in t) then f (map snd args) s else Panic PRuntime s.

(** reading the first n argument pointers: out of range panics. *)
Fixpoint read_args (n : nat) (args : list nat) (s : store) : option (list cell) :=
  match n with
  | 0 => Some []
  | S n =>
      match args with
      | [] => None
      | a :: args =>
          match get s a, read_args n args s with Some c, Some r => Some (c :: r) | _, _ => None end
      end
  end.

(** build.go:69-74: assign the results in order; [ts] their types. *)
Fixpoint set_results (results : list nat) (ts : list ty) (vs : list value) (s : store) : out bool :=
  match vs, ts with
  | [], _ => Ret true s
  | v :: vs, t :: ts =>
      match results with
      | [] => Panic PRuntime s
      | r :: results =>
          match get s r with
          | Some (t', _) => if ty_eqb t t' then set_results results ts vs (put s r v) else Panic PRuntime s
          | None => Panic PRuntime s
          end
      end
  | _ :: _, [] => Panic PRuntime s
  end.

(** build.go:11-77 buildMockHandler: [bound] is whether the replacement is bound to an
    instance (recvPtr != nil), [act] the receiver pointer of the call. *)
Definition mock_handler (bound : bool) (t : ftype) (f : user_fn) (act : option nat) (args results : list nat) (s : store) : out bool :=
  if bound && (match act with None => true | Some _ => false end) then Panic PRuntime s
  else
    let n := length (f_in t) in
    let recv := match act with
                | Some r => if bound then Some [] else if 0 <? n then option_map (fun c => [c]) (get s r) else Some []
                | None => Some []
                end in
    match recv with
    | None => Panic PRuntime s
    | Some rc =>
        match read_args (n - length rc) args s with
        | None => Panic PRuntime s
        | Some ac =>
            match reflect_call t f (rc ++ ac) s with
            | Panic p s' => Panic p s'
            | Ret vs s' => set_results results (f_out t) vs s'
            end
        end
    end.

(** object.go:126-131 ptrType.get. *)
Definition ptr_get (by_ptr : bool) (s : store) (l : nat) : option cell :=
  match get s l with
  | None => None
  | Some (t, v) => if by_ptr then Some (TPtr t, VPtr l) else Some (t, v)
  end.
Fixpoint ptr_gets (pts : list bool) (s : store) (ls : list nat) : option (list cell) :=
  match ls, pts with
  | [], _ => Some []
  | l :: ls, p :: pts => match ptr_get p s l, ptr_gets pts s ls with Some c, Some r => Some (c :: r) | _, _ => None end
  | _ :: _, [] => None
  end.
(** build.go:82-203 buildRecorderHandler: None: registration panics.  [fn]: the type of
    the recorded function value (for a bound method without the receiver). *)
Definition recorder_handler (bound : bool) (fn : ftype) (rt : ftype) (f : user_fn)
  : option (option nat -> list nat -> list nat -> store -> out (list value)) :=
  match resolve_arg_types (f_in rt) (f_in fn ++ f_out fn) with
  | None => None
  | Some pts => Some (fun act args results s =>
      if bound && (match act with None => true | Some _ => false end) then Panic PRuntime s
      else
        let n := length (f_in fn ++ f_out fn) in
        let locs := (match act with Some r => if bound then [] else if 0 <? n then [r] else [] | None => [] end) ++ args ++ results in
        match ptr_gets pts s locs with
        | None => Panic PRuntime s
        | Some cs =>
            if length cs =? n then reflect_call rt f cs s else Panic PRuntime s
        end)
  end.

(** ** Interceptors *)
Record finfo := FI { fi_recv_name : bytes; fi_arg_names : list bytes; fi_res_names : list bytes; fi_first_ctx : bool; fi_last_err : bool }.
Definition obj := list (bytes * nat).
Inductive ctx := CtxTODO | CtxBackground | CtxOf (v : value).
(** An interceptor: context, arguments and results objects; error or nil. *)
Definition interceptor := ctx -> obj -> obj -> store -> out (option nat).
Definition pre_interceptor := ctx -> obj -> obj -> store -> out (nat * option nat).
Definition post_interceptor := ctx -> obj -> obj -> nat -> store -> out (option nat).
(** ErrMocked (interceptor.go). *)
Definition err_mocked : nat := 0.

Fixpoint zip_names (names : list bytes) (ls : list nat) : option obj :=
  match ls, names with
  | [], _ => Some []
  | l :: ls, n :: names => option_map (cons (n, l)) (zip_names names ls)
  | _ :: _, [] => None
  end.
(** build.go:220-246, 285-309, 340-364. *)
Definition build_objects (bound : bool) (fi : finfo) (act : option nat) (args results : list nat) : option (obj * obj) :=
  match zip_names (fi_arg_names fi) args, zip_names (fi_res_names fi) results with
  | Some a, Some r =>
      Some ((match act with Some l => if bound then [] else [(fi_recv_name fi, l)] | None => [] end) ++ a, r)
  | _, _ => None
  end.
(** build.go:248-257. *)
Definition build_ctx (fi : finfo) (args : list nat) (s : store) : option ctx :=
  if fi_first_ctx fi then
    match args with
    | [] => None
    | a :: _ => match get s a with
                | None => None
                | Some (_, VNil) => Some CtxTODO
                | Some (_, v) => Some (CtxOf v)
                end
    end
  else Some CtxTODO.
(** build.go:260-267: the error goes to the last result or panics. *)
Definition report (fi : finfo) (results : list nat) (e : option nat) (s : store) : out unit :=
  match e with
  | None => Ret tt s
  | Some e =>
      if fi_last_err fi then
        match rev results with
        | [] => Panic PRuntime s
        | r :: _ => Ret tt (put s r (VErr e))
        end
      else Panic (PErr e) s
  end.
Definition guard_recv (bound : bool) (act : option nat) : bool := bound && (match act with None => true | Some _ => false end).

(** build.go:205-270 buildMockFromInterceptor. *)
Definition mock_from_interceptor (bound : bool) (ic : interceptor) (fi : finfo) (act : option nat) (args results : list nat) (s : store) : out bool :=
  if guard_recv bound act then Panic PRuntime s else
  match build_objects bound fi act args results, build_ctx fi args s with
  | Some (a, r), Some c =>
      match ic c a r s with
      | Panic p s' => Panic p s'
      | Ret e s' => match report fi results e s' with Ret _ s'' => Ret true s'' | Panic p s'' => Panic p s'' end
      end
  | _, _ => Panic PRuntime s
  end.
(** build.go:282-330: pre interceptor; result: data and "stop". *)
Definition pre_from_interceptor (bound : bool) (ic : pre_interceptor) (fi : finfo) (act : option nat) (args results : list nat) (s : store) : out (option nat * bool) :=
  if guard_recv bound act then Panic PRuntime s else
  match build_objects bound fi act args results, build_ctx fi args s with
  | Some (a, r), Some c =>
      match ic c a r s with
      | Panic p s' => Panic p s'
      | Ret (d, e) s' =>
          match e with
          | Some 0 => Ret (None, true) s'
          | _ => match report fi results e s' with Ret _ s'' => Ret (Some d, false) s'' | Panic p s'' => Panic p s'' end
          end
      end
  | _, _ => Panic PRuntime s
  end.
(** build.go:331-385: post interceptor. *)
Definition post_from_interceptor (bound : bool) (ic : post_interceptor) (fi : finfo) (act : option nat) (args results : list nat) (d : nat) (s : store) : out unit :=
  if guard_recv bound act then Panic PRuntime s else
  match build_objects bound fi act args results, build_ctx fi args s with
  | Some (a, r), Some c =>
      match ic c a r d s with
      | Panic p s' => Panic p s'
      | Ret e s' => report fi results e s'
      end
  | _, _ => Panic PRuntime s
  end.

(** ** Variables *)
Definition var_mock := nat -> store -> out unit.         (* given the result cell *)

(** mock.go:134-138 and 295-298: a replacement func() T or func() *T. *)
Definition var_replacer (t : ty) (f : user_fn) : var_mock := fun res s =>
  match f [] s with
  | Panic p s' => Panic p s'
  | Ret (v :: _) s' => match get s' res with
                       | Some (t', _) => if ty_eqb t t' then Ret tt (put s' res v) else Panic PRuntime s'
                       | None => Panic PRuntime s'
                       end
  | Ret [] s' => Panic PRuntime s'
  end.
(** mock.go:95-111 pushMockInterceptor, variable case: ErrMocked is no error. *)
Definition var_interceptor (name : bytes) (ic : interceptor) : var_mock := fun res s =>
  match ic CtxBackground [] [(name, res)] s with
  | Panic p s' => Panic p s'
  | Ret None s' => Ret tt s'
  | Ret (Some 0) s' => Ret tt s'
  | Ret (Some e) s' => Panic (PErr e) s'
  end.
(** mock.go:62-72 PushMockByName of "*name": the error is dropped (line 71). *)
Definition var_ptr_interceptor_by_name (name : bytes) (ic : interceptor) : var_mock := fun res s =>
  match ic CtxBackground [] [(name, res)] s with
  | Panic p s' => Panic p s'
  | Ret _ s' => Ret tt s'
  end.

(** The generated accessors (instrument_var): [res := v] (or [res := &v]), the trap
    with &v and &res, [return res].  The mock in force comes from the table for values
    (trapVar, var.go:15-47) or for pointers (trapVarPtr, 49-107; the fallback is
    disabled).  Simplification: recorders, general interceptors and tracing, which are
    treated in M_Dispatch and M_Interp, are absent here. *)
Record var_tables := VT { vt_val : nat -> option var_mock; vt_ptr : nat -> option var_mock }.
Definition run_var (m : option var_mock) (init : cell) (s : store) : out value :=
  let res := length s in
  let s0 := s ++ [init] in
  match (match m with None => Ret tt s0 | Some m => m res s0 end) with
  | Panic p s' => Panic p s'
  | Ret _ s' => match get s' res with Some (_, v) => Ret v s' | None => Panic PRuntime s' end
  end.
Definition read_var (vt : var_tables) (v : nat) (s : store) : out value :=
  match get s v with None => Panic PRuntime s | Some c => run_var (vt_val vt v) c s end.
Definition read_addr (vt : var_tables) (v : nat) (s : store) : out value :=
  match get s v with None => Panic PRuntime s | Some (t, _) => run_var (vt_ptr vt v) (TPtr t, VPtr v) s end.
