(** * Model of the function table
    (runtime/functab/functab.go, runtime/internal/runtime/xgo_trap_template.go:197-218).

    Go maps are association lists, newest entry first. *)
From Coq Require Import Ascii String List Arith Bool Lia.
From Verif Require Import M_Str M_FuncName.
Import ListNotations.

Inductive kind := KFunc | KVar | KVarPtr | KConst.
Definition kind_eqb (a b : kind) : bool :=
  match a, b with KFunc, KFunc | KVar, KVar | KVarPtr, KVarPtr | KConst, KConst => true | _, _ => false end.

(** core.FuncInfo (core/func.go:21-65), the fields the index uses.  [i_func]: the
    function value, as its PC and the name the runtime knows for that PC. *)
Record info := Info {
  i_uid : nat;                       (* pointer identity *)
  i_kind : kind; i_full : bytes; i_pkg : bytes; i_ident : bytes; i_name : bytes; i_recv : bytes;
  i_interface : bool; i_generic : bool; i_closure : bool;
  i_func : option (nat * bytes); i_var : option nat
}.

(** ** Staging: XgoRegister / XgoSetupRegisterHandler *)
Record reg_state := Reg { r_handler : bool; r_staging : list info; r_delivered : list info }.
Inductive reg_op := RRegister (f : info) | RSetup.

(** xgo_trap_template.go:200-218; Setup panics (None) when a handler is set. *)
Definition reg_step (s : reg_state) (o : reg_op) : option reg_state :=
  match o with
  | RRegister f =>
      if r_handler s then Some (Reg true (r_staging s) (r_delivered s ++ [f]))
      else Some (Reg false (r_staging s ++ [f]) (r_delivered s))
  | RSetup =>
      if r_handler s then None
      else Some (Reg true [] (r_delivered s ++ r_staging s))
  end.
(** A panicking Setup leaves the state unchanged (line 201 comes first). *)
Definition reg_run (ops : list reg_op) : reg_state :=
  fold_left (fun s o => match reg_step s o with Some s' => s' | None => s end) ops (Reg false [] []).

(** ** The index *)
Fixpoint find_key {A K} (eqb : K -> K -> bool) (k : K) (l : list (K * A)) : option A :=
  match l with [] => None | (k', v) :: r => if eqb k k' then Some v else find_key eqb k r end.

Definition eq2 (a b : bytes * bytes) : bool := eqs (fst a) (fst b) && eqs (snd a) (snd b).

Record table := Table {
  t_all : list info;                              (* funcInfos *)
  t_ident : list ((bytes * bytes) * info);        (* funcInfoMapping: pkg -> identity name *)
  t_pc : list (nat * info);                       (* funcPCMapping *)
  t_var : list (nat * info);                      (* varAddrMapping *)
  t_full : list (bytes * info);                   (* funcFullNameMapping *)
  t_intf : list ((bytes * bytes) * info)          (* interfaceMapping: pkg -> interface name *)
}.
Definition empty_table := Table [] [] [] [] [] [].

Definition nonempty (b : bytes) : bool := match b with [] => false | _ => true end.

(** registerIndex, functab.go:243-277: PC and full name; None when it panics. *)
Definition pc_full (i : info) : nat * bytes :=
  if i_generic i || i_interface i then (0, [])
  else match i_func i with
       | Some (pc, name) => (pc, name)
       | None =>
           if (i_closure i || negb (kind_eqb (i_kind i) KFunc)) && nonempty (i_ident i)
           then (0, i_pkg i ++ #"." ++ i_ident i) else (0, [])
       end.
Definition full_name (i : info) : option bytes :=
  let (_, name) := pc_full i in
  if nonempty (i_full i) then (if eqs (i_full i) name then Some (i_full i) else None) else Some name.

(** RegisterFunc + registerIndex (functab.go:38-44, 230-313). *)
Definition register (t : table) (i : info) : option table :=
  match full_name i with
  | None => None
  | Some full =>
      let pc := fst (pc_full i) in
      Some (Table (t_all t ++ [i])
        (if nonempty (i_ident i) then ((i_pkg i, i_ident i), i) :: t_ident t else t_ident t)
        (if negb (i_generic i) && negb (Nat.eqb pc 0) then (pc, i) :: t_pc t else t_pc t)
        (match i_var i with Some a => if kind_eqb (i_kind i) KVar then (a, i) :: t_var t else t_var t | None => t_var t end)
        (if nonempty full then (full, i) :: t_full t else t_full t)
        (if i_interface i && nonempty (i_recv i) then ((i_pkg i, i_recv i), i) :: t_intf t else t_intf t))
  end.
Fixpoint register_all (t : table) (l : list info) : option table :=
  match l with [] => Some t | i :: r => match register t i with None => None | Some t' => register_all t' r end end.

(** GetFuncByPkg (functab.go:88-111). *)
Definition get_func_by_pkg (t : table) (pkg name : bytes) : option info :=
  match find_key eq2 (pkg, name) (t_ident t) with
  | Some i => Some i
  | None =>
      if has_prefix name #"(" then None
      else match cut_first "."%char name with
           | None => None
           | Some (typ, fn) => find_key eq2 (pkg, #"(*" ++ typ ++ #")." ++ fn) (t_ident t)
           end
  end.

(** InfoPC, InfoVarAddr (functab.go:70-76). *)
Definition info_pc (t : table) (pc : nat) : option info := find_key Nat.eqb pc (t_pc t).
Definition info_var (t : table) (a : nat) : option info := find_key Nat.eqb a (t_var t).

(** GetFuncByFullName, getInterfaceOrGenericByFullName (functab.go:113-143);
    the outer None is a panic in ParseFuncName. *)
Definition get_func_by_full_name (t : table) (full : bytes) : option (option info) :=
  match find_key eqs full (t_full t) with
  | Some i => Some (Some i)
  | None =>
      match parse_func_name full with
      | None => None
      | Some p =>
          if nonempty (type_generic p) || nonempty (func_generic p) then
            Some (get_func_by_pkg t (pkg_path p)
                   (if nonempty (recv_name p) then recv_name p ++ #"." ++ func_name p else func_name p))
          else if nonempty (recv_name p) && negb (recv_ptr p)
          then Some (find_key eq2 (pkg_path p, recv_name p) (t_intf t))
          else Some None
      end
  end.
