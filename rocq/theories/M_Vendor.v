(** * Model of reading vendor/modules.txt (support/goinfo/vendor_parse.go:41-148) *)
From Coq Require Import Ascii String List Arith Bool.
From Verif Require Import M_Str M_Version M_Module.
Import ListNotations.
Open Scope nat_scope.
Open Scope list_scope.

(** ModVersion, vendorMetadata (14-22). *)
Record modv := { m_path : bytes; m_version : bytes }.
Record meta := { explicit : bool; replacement : modv; meta_go : bytes }.
Definition no_mod : modv := {| m_path := []; m_version := [] |}.
Definition no_meta : meta := {| explicit := false; replacement := no_mod; meta_go := [] |}.
(** VendorInfo (52-61); maps are lists in which the first entry of a key counts. *)
Record vendor := { v_list : list modv; v_replaced : list modv; v_version : list (bytes * bytes); v_pkgs : list (bytes * modv); v_meta : list (modv * meta); v_mod : modv }.
Definition empty_vendor : vendor := {| v_list := []; v_replaced := []; v_version := []; v_pkgs := []; v_meta := []; v_mod := no_mod |}.
Definition modv_eqb (a b : modv) : bool := eqs (m_path a) (m_path b) && eqs (m_version a) (m_version b).
Fixpoint lookup {K V} (eqb : K -> K -> bool) (k : K) (l : list (K * V)) : option V :=
  match l with [] => None | (k', v) :: r => if eqb k k' then Some v else lookup eqb k r end.
Definition meta_of (v : vendor) (m : modv) : meta := match lookup modv_eqb m (v_meta v) with Some x => x | None => no_meta end.
(** strings.Fields, ASCII. *)
Fixpoint fields_from (s cur : bytes) : list bytes :=
  match s with
  | [] => match cur with [] => [] | _ => [cur] end
  | c :: r => if is_space c then match cur with [] => fields_from r [] | _ => cur :: fields_from r [] end else fields_from r (cur ++ [c])
  end.
Definition fields (s : bytes) : list bytes := fields_from s [].
Definition valid_semver (v : bytes) : bool := match parse_semver v with Some _ => true | None => false end.
(** mod.go:141-176 ModCompare, FromToolchain, maybeToolchainVersion; version.go:116 IsValidVersion. *)
Definition valid_version (v : bytes) : bool :=
  match parse_version v with Gover [] [] [] [] [] => false | _ => true end.
Definition from_toolchain (name : bytes) : bytes :=
  if containsc "\"%char name || containsc "/"%char name then []
  else if has_prefix name #"go" then
    let v := fst (span (fun c => negb (eqc c " "%char || eqc c "009"%char || eqc c "-"%char)) (skipn 2 name)) in
    if valid_version v then v else []
  else [].
Definition toolchain_version (name : bytes) : bytes := if valid_version name then name else from_toolchain name.
Definition mod_compare (path x y : bytes) : comparison :=
  if eqs path #"go" then compare_version x y
  else if eqs path #"toolchain" then compare_version (toolchain_version x) (toolchain_version y)
  else compare_semver x y.

Definition set_mod (v : vendor) (m : modv) : vendor :=
  {| v_list := v_list v; v_replaced := v_replaced v; v_version := v_version v; v_pkgs := v_pkgs v; v_meta := v_meta v; v_mod := m |}.
Definition put_meta (v : vendor) (x : meta) : vendor :=
  {| v_list := v_list v; v_replaced := v_replaced v; v_version := v_version v; v_pkgs := v_pkgs v; v_meta := (v_mod v, x) :: v_meta v; v_mod := v_mod v |}.
Definition add_replaced (v : vendor) : vendor :=
  {| v_list := v_list v; v_replaced := v_replaced v ++ [v_mod v]; v_version := v_version v; v_pkgs := v_pkgs v; v_meta := v_meta v; v_mod := v_mod v |}.
(** 94-108: what follows the module on its line. *)
Definition read_replacement (v : vendor) (f : list bytes) : vendor :=
  match f with
  | a :: b :: r =>
      if eqs a #"=>" then
        let m := meta_of v (v_mod v) in
        match r with
        | [] => put_meta (add_replaced v) {| explicit := explicit m; replacement := {| m_path := b; m_version := [] |}; meta_go := meta_go m |}
        | [c] =>
            if valid_semver c then put_meta (add_replaced v) {| explicit := explicit m; replacement := {| m_path := b; m_version := c |}; meta_go := meta_go m |}
            else put_meta v m
        | _ => put_meta v m
        end
      else v
  | _ => v
  end.
(** 71-112: a line that begins with "# ". *)
Definition module_line (v : vendor) (line : bytes) : vendor :=
  match fields line with
  | _ :: p :: x :: r =>
      if valid_semver x then read_replacement (set_mod v {| m_path := p; m_version := x |}) r
      else if eqs x #"=>" then read_replacement (set_mod v {| m_path := p; m_version := [] |}) (x :: r)
      else set_mod v no_mod
  | _ => v
  end.
(** 120-135: annotations. *)
Definition annotate (m : meta) (entry : bytes) : meta :=
  let entry := trim_space entry in
  let m := if eqs entry #"explicit" then {| explicit := true; replacement := replacement m; meta_go := meta_go m |} else m in
  if has_prefix entry #"go " then {| explicit := explicit m; replacement := replacement m; meta_go := skipn 3 entry |} else m.
(** 137-147: a package. *)
Definition package_line (v : vendor) (line : bytes) : vendor :=
  match fields line with
  | [p] =>
      let m := v_mod v in
      let new := match lookup eqs (m_path m) (v_version v) with Some x => match mod_compare (m_path m) x (m_version m) with Lt => true | _ => false end | None => true end in
      {| v_list := if new then v_list v ++ [m] else v_list v; v_replaced := v_replaced v;
         v_version := if new then (m_path m, m_version m) :: v_version v else v_version v;
         v_pkgs := (p, m) :: v_pkgs v; v_meta := v_meta v; v_mod := m |}
  | _ => v
  end.
(** 69-148 parseLine. *)
Definition parse_line (v : vendor) (line : bytes) : vendor :=
  if has_prefix line #"# " then module_line v line
  else match m_path (v_mod v) with
       | [] => v
       | _ =>
           if has_prefix line #"## " then put_meta v (fold_left annotate (split ";"%char (skipn 3 line)) (meta_of v (v_mod v)))
           else package_line v line
       end.
(** 41-67 ParseVendorContent. *)
Definition parse_vendor (content : bytes) : vendor := fold_left parse_line (split newline content) empty_vendor.
