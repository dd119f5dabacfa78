(** * Model of version comparison
    (support/goinfo/version.go, support/goinfo/semver.go). *)
From Coq Require Import Ascii String List Arith Bool Lia.
From Verif Require Import M_Str.
Import ListNotations.
Open Scope nat_scope.

(** Comparison results -1, 0, +1 are Lt, Eq, Gt. *)

(** Go's < on strings: bytewise, a proper prefix is smaller. *)
Fixpoint str_cmp (x y : bytes) : comparison :=
  match x, y with
  | [], [] => Eq
  | [], _ :: _ => Lt
  | _ :: _, [] => Gt
  | a :: x, b :: y =>
      match Nat.compare (nat_of_ascii a) (nat_of_ascii b) with Eq => str_cmp x y | c => c end
  end.
Definition str_lt (x y : bytes) : bool := match str_cmp x y with Lt => true | _ => false end.
Definition is_digit (c : ascii) : bool := (48 <=? nat_of_ascii c) && (nat_of_ascii c <=? 57).
Definition is_lower (c : ascii) : bool := (97 <=? nat_of_ascii c) && (nat_of_ascii c <=? 122).
Definition is_upper (c : ascii) : bool := (65 <=? nat_of_ascii c) && (nat_of_ascii c <=? 90).

(** x[:i], x[i:] for the longest prefix satisfying p. *)
Fixpoint span (p : ascii -> bool) (x : bytes) : bytes * bytes :=
  match x with
  | [] => ([], [])
  | c :: r => if p c then let (a, b) := span p r in (c :: a, b) else ([], x)
  end.

(** version.go:149-158 cutInt (and semver.go:137-153 parseInt, which is the same). *)
Definition cut_int (x : bytes) : option (bytes * bytes) :=
  let (d, r) := span is_digit x in
  match d with
  | [] => None
  | c :: rest => if eqc c "0"%char && negb (length rest =? 0) then None else Some (d, r)
  end.

(** version.go:131-147 CmpInt (semver.go:201-216 compareInt is the same). *)
Definition cmp_int (x y : bytes) : comparison :=
  if eqs x y then Eq
  else if length x <? length y then Lt
  else if length y <? length x then Gt
  else if str_lt x y then Lt else Gt.
(** version.go:121-129 compareString. *)
Definition compare_string (x y : bytes) : comparison :=
  if str_lt x y then Lt else if str_lt y x then Gt else Eq.

(** version.go:14-20. *)
Record gover := Gover { v_major : bytes; v_minor : bytes; v_patch : bytes; v_kind : bytes; v_pre : bytes }.
Definition no_version := Gover [] [] [] [] [].

(** version.go:22-93 ParseVersion. *)
Definition parse_version (x : bytes) : gover :=
  match cut_int x with
  | None => no_version
  | Some (major, x) =>
      match x with
      | [] => Gover major #"0" #"0" [] []
      | c :: x =>
          if negb (eqc c "."%char) then no_version
          else
            match cut_int x with
            | None => no_version
            | Some (minor, x) =>
                match x with
                | [] => Gover major minor (match cmp_int minor #"21" with Lt => #"0" | _ => [] end) [] []
                | c :: x' =>
                    if eqc c "."%char then
                      match cut_int x' with
                      | Some (patch, []) => Gover major minor patch [] []
                      | _ => no_version
                      end
                    else
                      (* 73-92: the run of non-digits must be lower-case letters *)
                      let (kind, r) := span (fun c => negb (is_digit c)) x in
                      if negb (forallb is_lower kind) then no_version
                      else match kind with
                           | [] => no_version
                           | _ :: _ =>
                               match r with
                               | [] => Gover major minor [] kind []
                               | _ :: _ =>
                                   match cut_int r with
                                   | Some (pre, []) => Gover major minor [] kind pre
                                   | _ => no_version
                                   end
                               end
                           end
                end
            end
      end
  end.

(** "if c := ...; c != 0 { return c }" *)
Definition then_cmp (a b : comparison) : comparison := match a with Eq => b | c => c end.
(** version.go:94-116 CompareVersion. *)
Definition compare_version (x y : bytes) : comparison :=
  let vx := parse_version x in
  let vy := parse_version y in
  then_cmp (cmp_int (v_major vx) (v_major vy))
    (then_cmp (cmp_int (v_minor vx) (v_minor vy))
      (then_cmp (cmp_int (v_patch vx) (v_patch vy))
        (then_cmp (compare_string (v_kind vx) (v_kind vy))
          (cmp_int (v_pre vx) (v_pre vy))))).

(** ** semver.go *)
Record semver := Semver { s_major : bytes; s_minor : bytes; s_patch : bytes; s_pre : bytes; s_build : bytes }.

Definition is_ident_char (c : ascii) : bool := is_upper c || is_lower c || is_digit c || eqc c "-"%char.
Definition is_num (x : bytes) : bool := forallb is_digit x.
Definition is_bad_num (x : bytes) : bool :=
  match x with c :: _ :: _ => forallb is_digit x && eqc c "0"%char | _ => false end.

(** semver.go:155-182 parsePrerelease, 114-135 parseBuild: the text up to [+] (or the
    end) consists of non-empty dot-separated identifiers. *)
Definition ident_ok (check_num : bool) (x : bytes) : bool :=
  match x with [] => false | _ => forallb is_ident_char x && negb (check_num && is_bad_num x) end.
Definition parse_prerelease (v : bytes) : option (bytes * bytes) :=
  match v with
  | c :: r =>
      if eqc c "-"%char then
        let (body, rest) := span (fun c => negb (eqc c "+"%char)) r in
        if forallb (ident_ok true) (split "."%char body) then Some (c :: body, rest) else None
      else None
  | [] => None
  end.
Definition parse_build (v : bytes) : option (bytes * bytes) :=
  match v with
  | c :: r =>
      if eqc c "+"%char then
        if forallb (ident_ok false) (split "."%char r) then Some (v, []) else None
      else None
  | [] => None
  end.

(** semver.go:44-112 parseSemver. *)
Definition parse_semver (v : bytes) : option semver :=
  match v with
  | [] => None
  | c :: v =>
      if negb (eqc c "v"%char) then None else
      match cut_int v with
      | None => None
      | Some (major, []) => Some (Semver major #"0" #"0" [] [])
      | Some (major, c :: v) =>
          if negb (eqc c "."%char) then None else
          match cut_int v with
          | None => None
          | Some (minor, []) => Some (Semver major minor #"0" [] [])
          | Some (minor, c :: v) =>
              if negb (eqc c "."%char) then None else
              match cut_int v with
              | None => None
              | Some (patch, v) =>
                  match (match v with
                         | c :: _ => if eqc c "-"%char then parse_prerelease v else Some ([], v)
                         | [] => Some ([], [])
                         end) with
                  | None => None
                  | Some (pre, v) =>
                      match (match v with
                             | c :: _ => if eqc c "+"%char then parse_build v else Some ([], v)
                             | [] => Some ([], [])
                             end) with
                      | Some (build, []) => Some (Semver major minor patch pre build)
                      | _ => None
                      end
                  end
              end
          end
      end
  end.

(** semver.go:245-270, one pair of differing identifiers. *)
Definition ident_diff (dx dy : bytes) : comparison :=
  let nx := is_num dx in
  let ny := is_num dy in
  if negb (Bool.eqb nx ny) then (if nx then Lt else Gt)
  else if nx && (length dx <? length dy) then Lt
  else if nx && (length dy <? length dx) then Gt
  else if str_lt dx dy then Lt else Gt.
(** semver.go:238-277: the loop; each step drops the separator and takes the next
    identifier (nextIdent, 279-285).  [fuel]: a bound on the number of iterations. *)
Fixpoint pre_loop (fuel : nat) (x y : bytes) : comparison :=
  match fuel with
  | 0 => Eq
  | S n =>
      match x, y with
      | _ :: x', _ :: y' =>
          let (dx, rx) := span (fun c => negb (eqc c "."%char)) x' in
          let (dy, ry) := span (fun c => negb (eqc c "."%char)) y' in
          if eqs dx dy then pre_loop n rx ry else ident_diff dx dy
      | [], _ => Lt
      | _, [] => Gt
      end
  end.
(** semver.go:218-277 comparePrerelease. *)
Definition compare_prerelease (x y : bytes) : comparison :=
  if eqs x y then Eq
  else match x, y with
       | [], _ => Gt
       | _, [] => Lt
       | _, _ => pre_loop (S (length x + length y)) x y
       end.
(** semver.go:7-28 CompareSemVer. *)
Definition compare_semver (v w : bytes) : comparison :=
  match parse_semver v, parse_semver w with
  | None, None => Eq
  | None, _ => Lt
  | _, None => Gt
  | Some a, Some b =>
      then_cmp (cmp_int (s_major a) (s_major b))
        (then_cmp (cmp_int (s_minor a) (s_minor b))
          (then_cmp (cmp_int (s_patch a) (s_patch b))
            (compare_prerelease (s_pre a) (s_pre b))))
  end.
