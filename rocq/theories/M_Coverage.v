(** * Model of coverage profile merging (support/coverage/parse.go, merge.go, format.go,
    cmd/xgo/coverage/main.go:118-166). *)
From Coq Require Import Ascii String List Arith ZArith Bool Lia.
From Verif Require Import M_Str M_Version.
Import ListNotations.
Open Scope nat_scope.

(** int64 arithmetic wraps around. *)
Definition wrap64 (z : Z) : Z := ((z + 2 ^ 63) mod 2 ^ 64 - 2 ^ 63)%Z.

(** strconv.FormatInt(z, 10).  The fuel is enough for every z. *)
Definition digit_char (d : Z) : ascii := ascii_of_nat (48 + Z.to_nat d).
Fixpoint fmt_digits (fuel : nat) (z : Z) : bytes :=
  match fuel with
  | 0 => []
  | S n => (if (z <? 10)%Z then [] else fmt_digits n (z / 10)) ++ [digit_char (z mod 10)]
  end.
Definition format_int (z : Z) : bytes :=
  if (z <? 0)%Z then "-"%char :: fmt_digits (S (Z.to_nat (Z.log2 (- z)))) (- z)
  else fmt_digits (S (Z.to_nat (Z.log2 z))) z.

(** strconv.ParseInt(s, 10, 64); None: error (syntax or range). *)
Definition digits_value (s : bytes) : Z := fold_left (fun a c => (10 * a + Z.of_nat (nat_of_ascii c - 48))%Z) s 0%Z.
Definition parse_int (s : bytes) : option Z :=
  let '(neg, d) := match s with
                   | c :: r => if eqc c "-"%char then (true, r) else if eqc c "+"%char then (false, r) else (false, s)
                   | [] => (false, s)
                   end in
  match d with
  | [] => None
  | _ =>
      if negb (forallb is_digit d) then None
      else
        let v := digits_value d in
        if neg then (if (v <=? 2 ^ 63)%Z then Some (- v)%Z else None)
        else (if (v <? 2 ^ 63)%Z then Some v else None)
  end.

(** parse.go:8-11 CovLine; lines are handled through pointers: [heap] holds the line
    objects, a pointer is an index. *)
Definition line := (bytes * Z)%type.
Definition heap := list line.
Definition null_line : line := ([], 0%Z).
Definition at_ (h : heap) (a : nat) : line := nth a h null_line.
Fixpoint set_nth {A} (l : list A) (i : nat) (x : A) : list A :=
  match l, i with
  | [], _ => []
  | _ :: r, 0 => x :: r
  | y :: r, S i => y :: set_nth r i x
  end.

(** parse.go:34-47 ParseCovLine. *)
Definition parse_line (l : bytes) : option line :=
  match cut_last " "%char l with
  | None => None
  | Some (prefix, count) => Some (prefix, match parse_int count with Some c => c | None => 0%Z end)
  end.
Definition nl : ascii := "010"%char.
(** strings.TrimSpace; simplification: ASCII white space only. *)
Definition is_space (c : ascii) : bool := existsb (fun n => nat_of_ascii c =? n) [9; 10; 11; 12; 13; 32].
Fixpoint trim_left (s : bytes) : bytes := match s with c :: r => if is_space c then trim_left r else s | [] => [] end.
Definition trim_space (s : bytes) : bytes := rev (trim_left (rev (trim_left s))).
(** parse.go:15-32 Parse: mode and lines (as values; the caller allocates them). *)
Fixpoint some_lines (ls : list bytes) : list line :=
  match ls with [] => [] | l :: r => match parse_line l with Some x => x :: some_lines r | None => some_lines r end end.
Definition parse_profile (content : bytes) : bytes * list line :=
  match split nl content with
  | first :: rest =>
      if has_prefix first #"mode:" then (trim_space (skipn 5 first), some_lines rest) else ([], some_lines (first :: rest))
  | [] => ([], [])
  end.

(** *** Merging.  [arrs]: the arrays behind the slices; a slice passed by the caller is a
    whole array. *)
Record mem := Mem { m_heap : heap; m_arrs : list (list nat) }.
Definition arr (m : mem) (id : nat) : list nat := nth id (m_arrs m) [].
Definition load (m : mem) (a : nat) : line := at_ (m_heap m) a.
(** prevLine.Count += line.Count *)
Definition add_count (m : mem) (prev a : nat) : mem :=
  let '(p, c) := load m prev in
  Mem (set_nth (m_heap m) prev (p, wrap64 (c + snd (load m a)))) (m_arrs m).
Definition store (m : mem) (id i a : nat) : mem := Mem (m_heap m) (set_nth (m_arrs m) id (set_nth (arr m id) i a)).
(** lineByPrefix: map[string]*CovLine *)
Definition pmap := list (bytes * nat).
Fixpoint find_prefix (pm : pmap) (p : bytes) : option nat :=
  match pm with [] => None | (q, a) :: r => if eqs q p then Some a else find_prefix r p end.

(** parse.go:56-71 compact: [k] iterations remain, starting with lines[j]. *)
Fixpoint compact_loop (k j i : nat) (id : nat) (pm : pmap) (m : mem) : nat * pmap * mem :=
  match k with
  | 0 => (i, pm, m)
  | S k =>
      let a := nth j (arr m id) 0 in
      let prefix := fst (load m a) in
      match find_prefix pm prefix with
      | Some prev => compact_loop k (S j) i id pm (add_count m prev a)
      | None => compact_loop k (S j) (S i) id ((prefix, a) :: pm) (store m id i a)
      end
  end.

(** append(dst, a): dst is the slice of the first [n] elements of array [id].  When the
    array is full a new one is made (simplification: without spare capacity, which
    nobody else could see). *)
Definition append_slice (m : mem) (id n a : nat) : mem * nat :=
  if n <? length (arr m id) then (store m id n a, id)
  else (Mem (m_heap m) (m_arrs m ++ [firstn n (arr m id) ++ [a]]), length (m_arrs m)).

(** merge.go:33-44 doMerge: [k] elements of src remain, starting with src[j]. *)
Fixpoint merge_loop (k j : nat) (src : nat) (id n : nat) (pm : pmap) (m : mem) : nat * nat * pmap * mem :=
  match k with
  | 0 => (id, n, pm, m)
  | S k =>
      let a := nth j (arr m src) 0 in
      let prefix := fst (load m a) in
      match find_prefix pm prefix with
      | Some prev => merge_loop k (S j) src id n pm (add_count m prev a)
      | None =>
          let '(m, id) := append_slice m id n a in
          merge_loop k (S j) src id (S n) ((prefix, a) :: pm) m
      end
  end.
Fixpoint merge_rest (covs : list nat) (id n : nat) (pm : pmap) (m : mem) : nat * nat * mem :=
  match covs with
  | [] => (id, n, m)
  | src :: r =>
      let '(id, n, pm, m) := merge_loop (length (arr m src)) 0 src id n pm m in
      merge_rest r id n pm m
  end.
(** merge.go:5-18 Merge (49-53 Compact is the case of one profile); the result is a slice
    of an array, and the memory. *)
Definition merge (covs : list nat) (m : mem) : nat * nat * mem :=
  match covs with
  | [] => (0, 0, m)
  | first :: rest =>
      let '(i, pm, m) := compact_loop (length (arr m first)) 0 0 first [] m in
      merge_rest rest first i pm m
  end.
(** The lines a slice holds. *)
Definition lines_of (r : nat * nat * mem) : list line :=
  let '(id, n, m) := r in map (load m) (firstn n (arr m id)).

(** merge.go:20-30 Filter on the slice of the first [n] elements of array [id]. *)
Fixpoint filter_loop (check : line -> bool) (k i j : nat) (id : nat) (m : mem) : nat * mem :=
  match k with
  | 0 => (j, m)
  | S k =>
      let a := nth i (arr m id) 0 in
      if check (load m a) then filter_loop check k (S i) (S j) id (store m id j a)
      else filter_loop check k (S i) j id m
  end.
Definition filter_slice (check : line -> bool) (r : nat * nat * mem) : nat * nat * mem :=
  let '(id, n, m) := r in let '(j, m) := filter_loop check n 0 0 id m in (id, j, m).

(** format.go:15-22 Format. *)
Definition format_profile (mode : bytes) (ls : list line) : bytes :=
  join [nl] ((#"mode: " ++ mode) :: map (fun '(p, c) => p ++ " "%char :: format_int c) ls).

(** The memory after parsing the files: fresh lines, fresh arrays. *)
Fixpoint alloc (profiles : list (list line)) (m : mem) : mem :=
  match profiles with
  | [] => m
  | p :: r => alloc r (Mem (m_heap m ++ p) (m_arrs m ++ [seq (length (m_heap m)) (length p)]))
  end.
(** cmd/xgo/coverage/main.go:158-165. *)
Definition has_any_prefix (s : bytes) (prefixes : list bytes) : bool := existsb (has_prefix s) prefixes.
(** cmd/xgo/coverage/main.go:118-156 mergeCover, reading and writing of files left out. *)
Definition merge_cover (contents : list bytes) (exclude : list bytes) : bytes :=
  let m := alloc (map (fun c => snd (parse_profile c)) contents) (Mem [] []) in
  let r := merge (seq 0 (length contents)) m in
  let r := filter_slice (fun l => negb (has_any_prefix (fst l) exclude)) r in
  format_profile #"count" (lines_of r).

Example test1 : merge_cover [#"mode: set" ++ nl :: #"a 1 1" ++ nl :: #"b 1 0" ++ nl :: #"a 1 4"; #"mode: set" ++ nl :: #"c 1 7" ++ nl :: #"a 1 10" ++ [nl]] [#"b"]
  = #"mode: count" ++ nl :: #"a 1 15" ++ nl :: #"c 1 7".
Proof. vm_compute. reflexivity. Qed.
