(** * Model of the trace viewer (cmd/xgo/trace) *)
From Coq Require Import Ascii String List Arith Bool Lia ZArith.
From Verif Require Import M_Str M_Coverage.
Import ListNotations.
Open Scope nat_scope.
Open Scope list_scope.

(** ** The trace: render/stack_model/stack_model.go:17-69 *)
(** 42-69 FuncInfo. Only the fields the viewer itself reads are named; the others are [fi_rest]. *)
Record finfo := { fi_pkg : bytes; fi_name : bytes; fi_file : bytes; fi_line : Z; fi_rest : bytes }.
(** 23-40 StackEntry. [e_addr] is its address: the page keeps a map keyed by pointers (render.go:114).
    A child may be nil (a null in the file). Args and Results are JSON texts. *)
Inductive entry :=
  Entry (addr : nat) (fi : option finfo) (begin_ns end_ns : Z) (args results : bytes)
        (panic : bool) (panic_line : Z) (err : bytes) (children : list (option entry)).
(** 17-21 Stack. *)
Record stack := { s_format : bytes; s_begin : bytes; s_children : list (option entry) }.
Definition e_addr (e : entry) := match e with Entry a _ _ _ _ _ _ _ _ _ => a end.
Definition e_fi (e : entry) := match e with Entry _ f _ _ _ _ _ _ _ _ => f end.
Definition e_begin (e : entry) := match e with Entry _ _ b _ _ _ _ _ _ _ => b end.
Definition e_end (e : entry) := match e with Entry _ _ _ d _ _ _ _ _ _ => d end.
Definition e_panic (e : entry) := match e with Entry _ _ _ _ _ _ p _ _ _ => p end.
Definition e_err (e : entry) := match e with Entry _ _ _ _ _ _ _ _ x _ => x end.
Definition e_children (e : entry) := match e with Entry _ _ _ _ _ _ _ _ _ c => c end.

(** ** Reading: render/render.go:26-62 readStacksFromReader *)
(** What encoding/json.Decoder finds in the file: complete values, each of which does or does not
    fit the type, and then either the end of the file or text that is not the start of a value or not all
    of one. The decoder keeps that last error: every later Decode returns it again (Decoder.err);
    an error of a value that does not fit is not kept. *)
Inductive item := Fits (s : stack) | Misfit (msg : bytes).
Inductive ending := AtEOF | Broken (msg : bytes).
Definition file := (list item * ending)%type.
Inductive decoded := DVal (s : stack) | DErr (msg : bytes) | DEof.
(** Decoder.Decode. *)
Definition decode (f : file) : decoded * file :=
  match f with
  | (Fits s :: r, d) => (DVal s, (r, d))
  | (Misfit m :: r, d) => (DErr m, (r, d))
  | ([], AtEOF) => (DEof, f)
  | ([], Broken m) => (DErr m, f)
  end.
(** 49-56: the stack that stands for an error; [now] is the time. The fresh entry has address 0
    (every allocation has its own address, which matters only within one stack here). *)
Definition error_stack (now msg : bytes) : stack :=
  {| s_format := []; s_begin := now;
     s_children := [Some (Entry 0 None 0 0 [] [] false 0 (#"parse stack: " ++ msg) [])] |}.
(** 43-60: one turn of the loop. inl: the loop goes on with these stacks and this file. *)
Definition turn (now : bytes) (stacks : list stack) (f : file) : (list stack * file) + list stack :=
  match decode f with
  | (DEof, _) => inr stacks
  | (DVal s, f') => inl (stacks ++ [s], f')
  | (DErr m, f') => inl (stacks ++ [error_stack now m], f')
  end.
(** the loop, as a relation: it is not known to end. *)
Inductive loop (now : bytes) : list stack -> file -> list stack -> Prop :=
| LEnd l f r : turn now l f = inr r -> loop now l f r
| LNext l f l' f' r : turn now l f = inl (l', f') -> loop now l' f' r -> loop now l f r.
(** after [n] turns the loop is still running and holds these stacks. *)
Inductive running (now : bytes) : nat -> list stack -> file -> list stack -> file -> Prop :=
| RHere l f : running now 0 l f l f
| RTurn n l f l' f' l2 f2 : turn now l f = inl (l', f') -> running now n l' f' l2 f2 -> running now (S n) l f l2 f2.
(** 26-62: what a call returns; a call that does not end returns nothing. *)
Inductive result := RErr (msg : bytes) | ROk (l : list stack) | ROther.
Inductive reads (now : bytes) (force : bool) : file -> result -> Prop :=
| REmpty f f' : decode f = (DEof, f') -> reads now force f (ROk [])
| RError f f' m : decode f = (DErr m, f') -> reads now force f (RErr m)
| ROtherFormat f f' s : decode f = (DVal s, f') -> negb force && negb (eqs (s_format s) #"stack") = true -> reads now force f ROther
| RStacks f f' s r : decode f = (DVal s, f') -> negb force && negb (eqs (s_format s) #"stack") = false -> loop now [s] f' r -> reads now force f (ROk r).

(** ** The old format: convert.go:9-66, stack_export.go:16-61 *)
Inductive xentry :=
  XEntry (addr : nat) (fi : option (bytes * finfo)) (begin_ns end_ns : Z) (args results : bytes)
         (snapshot panic : bool) (err : bytes) (children : list (option xentry)).
(** 41-66 convertFuncInfo: None is a nil pointer, read at 43: a panic. The pair is IdentityName and the rest,
    in which [fi_name] is the plain name. *)
Definition convert_func_info (i : option (bytes * finfo)) : option finfo :=
  match i with
  | None => None
  | Some (ident, f) => Some {| fi_pkg := fi_pkg f; fi_name := ident; fi_file := fi_file f; fi_line := fi_line f; fi_rest := fi_rest f |}
  end.
(** 16-39 convertStackEntries. None: a panic (a nil child, or a nil FuncInfo). A new entry gets the address of
    the one it is made from: both are distinct allocations. *)
Fixpoint convert_entry (x : xentry) : option entry :=
  match x with
  | XEntry a i b d ar re _ p er ch =>
      match convert_func_info i,
            (fix go (l : list (option xentry)) : option (list (option entry)) :=
               match l with
               | [] => Some []
               | None :: _ => None
               | Some c :: r =>
                   match convert_entry c with
                   | None => None
                   | Some c' => match go r with None => None | Some r' => Some (Some c' :: r') end
                   end
               end) ch with
      | Some f, Some l => Some (Entry a (Some f) b d ar re p 0 er l)
      | _, _ => None
      end
  end.

(** ** Text *)
(** html.EscapeString *)
Definition escape_char (c : ascii) : bytes :=
  if Ascii.eqb c "&"%char then #"&amp;"
  else if Ascii.eqb c "'"%char then #"&#39;"
  else if Ascii.eqb c "<"%char then #"&lt;"
  else if Ascii.eqb c ">"%char then #"&gt;"
  else if Ascii.eqb c """"%char then #"&#34;"
  else [c].
Definition escape_html (s : bytes) : bytes := flat_map escape_char s.
(** format.go:30-64 formatCost. The division is exact here: the program divides float64 numbers, which
    agrees as long as no rounding happens to reach the next whole number; and the difference of the times
    is that of whole numbers, not of int64. A quotient is kept as the cost and the product of the scales. *)
Definition units : list (bytes * Z) :=
  [(#"μs", 1000); (#"ms", 1000); (#"s", 1000); (#"m", 60); (#"h", 60); (#"d", 24)]%Z.
(** 53-61; the quotient is cost/scale. *)
Fixpoint scale_up (us : list (bytes * Z)) (cost scale : Z) (name : bytes) : Z * bytes :=
  match us with
  | [] => (scale, name)
  | (n, x) :: r => if (cost <? x * scale)%Z then (scale, name) else scale_up r cost (scale * x) n
  end.
Definition format_cost (b e : Z) : bytes :=
  if (e =? 0)%Z && (b =? 0)%Z then []
  else
    let cost := (e - b)%Z in
    let sign : bytes := if (cost <? 0)%Z then #"-" else [] in
    let cost := Z.abs cost in
    let '(scale, name) := scale_up units cost 1%Z #"ns" in
    sign ++ format_int (cost / scale)%Z ++ name.

(** ** The page: render/render.go:72-200, render_item.go:10-67 *)
(** The pieces of the page that depend on the trace, in their order; fixed text is left out. A row of the
    table of details is the entry without its children (format.go:13-20; json.Marshal does not fail on
    values that were decoded). *)
Inductive piece :=
| PRow (id : nat) (data : entry)                        (* 122-127  traces["id"] = data *)
| PPush (id : nat)                                      (* 128      ids.push("id") *)
| PList                                                 (* 158      the list begins *)
| PHead (id : nat) (toggle : bool) (panic error : bool) (name cost : bytes) (* render_item.go:24-56 *)
| PSub (id : nat)                                       (* 61       <ul id="trace_list_id"> *)
| PLi | PEndLi                                          (* 63, 65 *)
| PEndSub                                               (* 67 *)
| PEndList.                                             (* 162 *)
(** format.go:13-20 marshalStackWithoutChildren *)
Definition without_children (e : entry) : entry :=
  match e with Entry a f b d ar re p pl er _ => Entry a f b d ar re p pl er [] end.
(** the map of 114, newest entry first; a missing key reads 0. *)
Definition idmap := list (nat * nat).
Fixpoint id_of (m : idmap) (a : nat) : nat :=
  match m with [] => 0 | (k, v) :: r => if k =? a then v else id_of r a end.
Record wst := { w_next : nat; w_map : idmap; w_out : list piece }.
(** 117-132 walk. The flag: no panic yet. A nil entry takes an identifier and panics at format.go:14. *)
Fixpoint walk (e : entry) (s : wst) : wst * bool :=
  match e with
  | Entry a _ _ _ _ _ _ _ _ ch =>
      let id := w_next s in
      let s := {| w_next := S id; w_map := (a, id) :: w_map s;
                  w_out := w_out s ++ [PRow id (without_children e); PPush id] |} in
      (fix go (l : list (option entry)) (s : wst) : wst * bool :=
         match l with
         | [] => (s, true)
         | None :: _ => ({| w_next := S (w_next s); w_map := w_map s; w_out := w_out s |}, false)
         | Some c :: r => let '(s, ok) := walk c s in if ok then go r s else (s, false)
         end) ch s
  end.
(** 133-142: the entry made for each stack, at an address of its own. *)
Definition root_info (name : bytes) : finfo := {| fi_pkg := []; fi_name := name; fi_file := []; fi_line := 0; fi_rest := [] |}.
Definition top_entry (a : nat) (name : bytes) (s : stack) : entry :=
  Entry a (Some (root_info name)) 0 0 [] [] false 0 [] (s_children s).
Fixpoint walk_tops (l : list (nat * stack)) (s : wst) : wst * bool :=
  match l with
  | [] => (s, true)
  | (a, st) :: r => let '(s, ok) := walk (top_entry a #"<root>" st) s in if ok then walk_tops r s else (s, false)
  end.
(** 144-148: the names of the list, set after the rows are written. *)
Fixpoint number_tops (many : bool) (i : nat) (l : list (nat * stack)) : list entry :=
  match l with
  | [] => []
  | (a, st) :: r =>
      top_entry a (if many then #"<root_" ++ format_int (Z.of_nat i) ++ #">" else #"<root>") st
      :: number_tops many (S i) r
  end.
(** render_item.go:10-22 *)
Definition shown_name (e : entry) : bytes :=
  match match e_fi e with None => [] | Some f => fi_name f end with
  | [] => #"<unknown>"
  | n => n
  end.
(** 10-67 renderItem. A nil entry is not met here: walk would have panicked. *)
Fixpoint render_item (m : idmap) (e : entry) : list piece :=
  match e with
  | Entry a _ b d _ _ p _ er ch =>
      let id := id_of m a in
      PHead id (match ch with [] => false | _ => true end) p (match er with [] => false | _ => true end)
            (escape_html (shown_name e)) (format_cost b d)
      :: match ch with
         | [] => []
         | _ =>
             PSub id ::
             (fix go (l : list (option entry)) : list piece :=
                match l with
                | [] => []
                | None :: r => go r
                | Some c :: r => (PLi :: render_item m c ++ [PEndLi]) ++ go r
                end) ch ++ [PEndSub]
         end
  end.
(** 72-200 RenderStacks: the pieces written, and whether it ends without an error (a panic is recovered and
    returned, 73-81; main.go:147 drops it). *)
Definition render_stacks (l : list (nat * stack)) : list piece * bool :=
  let '(s, ok) := walk_tops l {| w_next := 1; w_map := []; w_out := [] |} in
  if ok then
    (w_out s ++ PList :: flat_map (render_item (w_map s)) (number_tops (1 <? length l) 0 l) ++ [PEndList], true)
  else (w_out s, false).
