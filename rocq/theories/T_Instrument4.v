(** * C47 (identity and registered metadata), C49 (modes and modules), C52 (all files of a
    package), C57 (references to variables).  Model: M_Instrument. *)
From Coq Require Import Ascii String List Arith ZArith Bool Lia.
From Verif Require Import M_Str M_Edit M_Coverage M_Instrument T_Edit T_Coverage T_Instrument T_Instrument2 T_Instrument3.
Import ListNotations.
Open Scope nat_scope.

(** ** C49: modes and main modules *)
(** Everything of the packages of the main module and of those named on the command line;
    of other packages nothing, or the exported functions if all are to be trapped and the
    package is not of the standard library. *)
Theorem C49_mode :
  forall stdlib main initial trap_all,
    (check_mode stdlib main initial trap_all = All <-> main = true \/ initial = true) /\
    (check_mode stdlib main initial trap_all = Exported <-> main = false /\ initial = false /\ stdlib = false /\ trap_all = true) /\
    (check_mode stdlib main initial trap_all = NoMode <-> main = false /\ initial = false /\ (stdlib = true \/ trap_all = false)).
Proof. intros [] [] [] []; cbn; intuition discriminate. Qed.
Print Assumptions C49_mode.
Lemma within_iff pkg m : (match within pkg m with Some _ => true | None => false end) = true <-> under m pkg.
Proof.
  unfold within, under. destruct (has_prefix pkg m) eqn:E.
  - apply has_prefix_sound in E as (r & ->). rewrite skipn_app, skipn_all, Nat.sub_diag. cbn [app skipn].
    destruct r as [|c r].
    + split; auto. intros _. left. now rewrite app_nil_r.
    + destruct (eqc c "/"%char) eqn:C.
      * apply eqc_eq in C. subst c. split; auto. intros _. right. now exists r.
      * split; [discriminate|]. intros [U|(r' & U)]; [rewrite <- (app_nil_r m) in U at 2; apply app_inv_head in U; discriminate|].
        apply app_inv_head in U. injection U as U _. apply eqc_neq in C. now apply C in U.
  - split; [discriminate|]. intros [->|(r & ->)]; [rewrite <- (app_nil_r m) in E at 1|]; now rewrite has_prefix_app in E.
Qed.
(** A package counts as the user's own exactly when it lies in the main module or in one of
    the modules a rule adds. *)
Theorem C49_main_modules :
  forall pkg main extras,
    in_any pkg main extras = true <-> exists m, In m (main :: extras) /\ m <> [] /\ under m pkg.
Proof.
  intros pkg main extras. unfold in_any. rewrite orb_true_iff, existsb_exists. split.
  - intros [H|(m & I & H)].
    + exists main. destruct main as [|c m]; [discriminate|]. apply within_iff in H. repeat split; auto; [now left|discriminate].
    + exists m. destruct m as [|c m]; [discriminate|]. destruct (eqs (c :: m) main); [discriminate|]. apply within_iff in H. repeat split; auto; [now right|discriminate].
  - intros (m & I & N & U). apply within_iff in U. destruct (eqs m main) eqn:E.
    + apply eqs_eq in E. subst main. left. destruct m; [congruence|exact U].
    + right. destruct I as [->|I]; [now rewrite eqs_refl in E|]. exists m. split; auto. destruct m; [congruence|]. rewrite E. exact U.
Qed.
Print Assumptions C49_main_modules.
Example C49_modules_example :
  in_any #"a.b/m/x" #"a.b/m" [] = true /\ in_any #"a.b/mx" #"a.b/m" [#""; #"c"] = false /\ in_any #"c" #"a.b/m" [#""; #"c"] = true /\ in_any #"c" #"" [] = false.
Proof. repeat split. Qed.

(** ** C47: the name a function is registered under *)
(** The receiver types Go allows: a type name, of this package or written with another, with
    or without type arguments and with or without a star. *)
Inductive type_of : rexpr -> bytes -> Prop :=
| t_ident n : type_of (RIdent n) n
| t_sel p n : type_of (RSel p n) n.
Inductive receiver : rexpr -> bool -> bool -> bytes -> Prop :=
| r_value x n : type_of x n -> receiver x false false n
| r_generic x n : type_of x n -> receiver (RIndex x) false true n
| r_ptr x n : type_of x n -> receiver (RStar x) true false n
| r_ptr_generic x n : type_of x n -> receiver (RStar (RIndex x)) true true n.
Lemma parse_receiver_iff x p g n : parse_receiver x = Some (p, g, n) <-> receiver x p g n.
Proof.
  split.
  - unfold parse_receiver. destruct x as [a|y|y|a b|]; [..|discriminate].
    + intros [= <- <- <-]. constructor. constructor.
    + destruct y as [a|z|z|a b|]; try discriminate; [intros [= <- <- <-]; repeat constructor| |intros [= <- <- <-]; constructor; constructor].
      destruct z; try discriminate; intros [= <- <- <-]; constructor; constructor.
    + destruct y; try discriminate; intros [= <- <- <-]; constructor; constructor.
    + intros [= <- <- <-]. constructor. constructor.
  - intros R. inversion R as [? ? T|? ? T|? ? T|? ? T]; subst; inversion T; subst; reflexivity.
Qed.
(** A function is registered as f, a method as T.f or ( *T).f; more than one receiver or
    another form of receiver type is refused. *)
Theorem C47_identity :
  forall d,
    match d_recv d with
    | [] => identity d = Some (d_name d, None)
    | [(_, x)] =>
        (forall g n, receiver x false g n -> identity d = Some (n ++ #"." ++ d_name d, Some (false, g, n))) /\
        (forall g n, receiver x true g n -> identity d = Some (#"(*" ++ n ++ #")." ++ d_name d, Some (true, g, n))) /\
        ((forall p g n, ~ receiver x p g n) -> identity d = None)
    | _ => identity d = None
    end.
Proof.
  intros d. unfold identity. destruct (d_recv d) as [|[f x] [|y l]]; auto. repeat split.
  - intros g n R. apply parse_receiver_iff in R. rewrite R, <- app_assoc. reflexivity.
  - intros g n R. apply parse_receiver_iff in R. rewrite R, <- !app_assoc. reflexivity.
  - intros N. destruct (parse_receiver x) as [[[p g] n]|] eqn:E; auto. apply parse_receiver_iff in E. now apply N in E.
Qed.
Print Assumptions C47_identity.
(** So a function, the value method and the pointer method of the same name are told apart,
    and so are types, when names are identifiers. *)
Definition plain_name (n : bytes) : Prop := ~ In "."%char n /\ ~ In "("%char n /\ ~ In ")"%char n /\ ~ In "*"%char n.
Definition written_name (t : option (bool * bytes)) (f : bytes) : bytes :=
  match t with None => f | Some (false, n) => n ++ #"." ++ f | Some (true, n) => #"(*" ++ n ++ #")." ++ f end.
Definition type_ok (t : option (bool * bytes)) : Prop := match t with Some (_, n) => plain_name n | None => True end.
Lemma dot_split a b c d : ~ In "."%char b -> ~ In "."%char d -> a ++ #"." ++ b = c ++ #"." ++ d -> a = c /\ b = d.
Proof.
  intros B D E. apply (f_equal (cut_last "."%char)) in E.
  assert (C : forall x y, ~ In "."%char y -> cut_last "."%char (x ++ #"." ++ y) = Some (x, y)) by (intros; now apply cut_last_some).
  rewrite !C in E by auto. now injection E.
Qed.
Theorem C47_identity_unique :
  forall t t' f f', plain_name f -> plain_name f' -> type_ok t -> type_ok t' -> written_name t f = written_name t' f' -> t = t' /\ f = f'.
Proof.
  intros t t' f f' (F & _) (F' & _) T T' E.
  assert (W : forall (p : bool) n g, written_name (Some (p, n)) g = (if p then #"(*" ++ n ++ #")" else n) ++ #"." ++ g) by (intros [] n g; cbn [written_name]; rewrite <- ?app_assoc; reflexivity).
  destruct t as [[p n]|], t' as [[p' n']|].
  - rewrite !W in E. apply dot_split in E as [E ->]; auto. split; auto.
    destruct T as (_ & T1 & _), T' as (_ & T1' & _). destruct p, p'; cbn [app] in E.
    + apply app_inv_head in E. apply app_inv_tail in E. now subst.
    + exfalso. apply T1'. rewrite <- E. now left.
    + exfalso. apply T1. rewrite E. now left.
    + now subst.
  - exfalso. apply F'. change (written_name None f') with f' in E. rewrite <- E, W. apply in_or_app. right. now left.
  - exfalso. apply F. change (written_name None f) with f in E. rewrite E, W. apply in_or_app. right. now left.
  - auto.
Qed.
Print Assumptions C47_identity_unique.
Example C47_identity_example :
  let f := {| f_names := []; f_type := 0 |} in
  let d x := {| d_name := #"Do"; d_body := None; d_nosplit := false; d_recv := x; d_params := []; d_params_close := 0; d_results := []; d_results_paren := false; d_line := 1; d_generic := false |} in
  map (fun x => option_map fst (identity (d x))) [[]; [(f, RIdent #"T")]; [(f, RStar (RIdent #"T"))]; [(f, RStar (RIndex (RIdent #"L")))]; [(f, ROther)]; [(f, RIdent #"T"); (f, RIdent #"T")]]
  = [Some #"Do"; Some #"T.Do"; Some #"(*T).Do"; Some #"(*L).Do"; None; None].
Proof. reflexivity. Qed.

(** ** C47: what is registered *)
(** A metadata value: a composite literal of these entries. *)
Definition literal (file_index : nat) (entries : list bytes) : bytes := #"&__xgo_func_info_" ++ itoa file_index ++ #"{" ++ join #"," entries ++ #"}".
Definition head_entries (file_index : nat) (file_var : bytes) (kind : bytes) (name id : bytes) (line : nat) : list bytes :=
  [#"Kind:" ++ kind; #"Pkg:__xgo_pkg_" ++ itoa file_index; #"Name:" ++ quote name; #"IdentityName:" ++ quote id;
   #"File:" ++ file_var ++ itoa file_index; #"Line:" ++ itoa line].
Definition is_generic (f : finfo) : bool := fi_generic f || match fi_rtype f with Some (_, true, _) => true | _ => false end.
Definition func_entries (file_index : nat) (stdlib : bool) (f : finfo) : list bytes :=
  head_entries file_index #"__xgo_file_" #"0" (fi_name f) (fi_identity f) (fi_line f) ++
  (match fi_recv f, fi_rtype f with
   | r :: _, Some (ptr, _, t) => [#"RecvPtr:" ++ (if ptr then #"true" else #"false"); #"RecvType: " ++ quote t; #"RecvName:" ++ quote r]
   | _, _ => []
   end) ++
  (if is_generic f then [#"Generic:true"] else []) ++
  (match fi_params f with [] => [] | _ => [#"ArgNames:[]string{" ++ join #"," (map quote (fi_params f)) ++ #"}"] end) ++
  (match fi_results f with [] => [] | _ => [#"ResNames:[]string{" ++ join #"," (map quote (fi_results f)) ++ #"}"] end) ++
  (if stdlib then [#"Stdlib:true"] else []).
Definition var_entries (file_index : nat) (stdlib : bool) (name : bytes) (line : nat) : list bytes :=
  head_entries file_index #"__xgo_file_var_" #"1" name name line ++ [#"Var:&" ++ name; #"ResNames:[]string{" ++ quote name ++ #"}"] ++ (if stdlib then [#"Stdlib:true"] else []).
Definition intf_entries (file_index : nat) (stdlib : bool) (name : bytes) (line : nat) : list bytes :=
  head_entries file_index #"__xgo_file_" #"0" name name line ++ [#"Interface:true"; #"RecvType: " ++ quote name] ++ (if stdlib then [#"Stdlib:true"] else []).
Definition declare (var value : bytes) : bytes := #"var " ++ var ++ #"=" ++ value.

(** Statements of Go: the ones that are not empty, one after the other, with a semicolon
    between them. *)
Definition nonempty (l : list bytes) : list bytes := filter (fun s => match s with [] => false | _ => true end) l.
Definition sequence (l : list bytes) : bytes := join #";" (nonempty l).
(** All declarations put into a file: the stubs the runtime fills in, the package and the
    file, one variable of metadata for each variable, function and interface, one init
    function that stores the functions themselves and one that registers everything. *)
Definition stubs (file_index : nat) (pkg file : bytes) : list bytes :=
  let n := itoa file_index in
  [#"type __xgo_func_info_" ++ n ++ #" struct{" ++ fields_text ++ #"}";
   #"var __xgo_register_" ++ n ++ #" = func(v interface{}){}";
   #"var __xgo_trap_" ++ n ++ #" = func(info interface{}, recvPtr interface{}, args []interface{}, results []interface{}) (func(), bool){return nil, false;}";
   #"var __xgo_trap_var_" ++ n ++ #" = func(info interface{}, varAddr interface{}, res interface{}){}";
   #"var __xgo_trap_varptr_" ++ n ++ #" = func(info interface{}, varAddr interface{}, res interface{}){}";
   #"var __xgo_pkg_" ++ n ++ #"=" ++ quote pkg; #"var __xgo_file_" ++ n ++ #"=" ++ quote file; #"var __xgo_file_var_" ++ n ++ #"=" ++ quote file].
Definition metadata (file_index : nat) (stdlib : bool) (vars : list (bytes * bytes * nat)) (funcs : list finfo) (intfs : list (bytes * bytes * nat)) : list (bytes * list bytes) :=
  map (fun '(v, name, line) => (v, var_entries file_index stdlib name line)) vars ++
  map (fun f => (fi_var f, func_entries file_index stdlib f)) funcs ++
  map (fun '(v, name, line) => (v, intf_entries file_index stdlib name line)) intfs.
Definition init_func (body : list bytes) : bytes := #"func init(){" ++ join #";" body ++ #";}".
Definition declarations (file_index : nat) (stdlib : bool) (pkg file : bytes) (vars : list (bytes * bytes * nat)) (funcs : list finfo) (intfs : list (bytes * bytes * nat)) : list bytes :=
  let ms := metadata file_index stdlib vars funcs intfs in
  let values := filter (fun f => negb (is_generic f)) funcs in
  stubs file_index pkg file ++ map (fun m => declare (fst m) (literal file_index (snd m))) ms ++
  (match values with [] => [] | _ => [init_func (map (fun f => fi_var f ++ #".Func=" ++ fi_identity f) values)] end) ++
  [init_func ((#"__xgo_init_" ++ itoa file_index ++ #"()") :: map (fun m => #"__xgo_register_" ++ itoa file_index ++ #"(" ++ fst m ++ #")") ms)].

(** *** Proofs *)
Definition ends_ok (s : bytes) : Prop := s <> [] -> needs_sep s = true.
Lemma needs_sep_snoc s c : needs_sep (s ++ [c]) = negb (eqc c ";"%char || eqc c (ascii_of_nat 10)).
Proof. unfold needs_sep. rewrite rev_app_distr. reflexivity. Qed.
Lemma join_stmts_spec l : Forall ends_ok l -> forall last, join_stmts last l = match nonempty l with [] => [] | _ => (if needs_sep last then #";" else []) ++ join #";" (nonempty l) end.
Proof.
  induction 1 as [|s l S F IH]; intros last; auto. cbn [join_stmts nonempty filter]. destruct s as [|c s]; [apply IH|].
  rewrite IH. fold (nonempty l). rewrite (S ltac:(discriminate)). destruct (nonempty l) as [|y r] eqn:E.
  - cbn [join]. now rewrite app_nil_r.
  - cbn [join]. reflexivity.
Qed.
Lemma stmts_spec l : Forall ends_ok l -> stmts l = sequence l.
Proof. intros F. unfold stmts, sequence. rewrite join_stmts_spec by auto. cbn [needs_sep rev]. destruct (nonempty l); reflexivity. Qed.
Lemma join_snoc sep l x : l <> [] -> join sep (l ++ [x]) = join sep l ++ sep ++ x.
Proof.
  induction l as [|y l IH]; [congruence|]. intros _. destruct l as [|z l]; [reflexivity|].
  cbn [app join] in *. rewrite IH by discriminate. now rewrite <- !app_assoc.
Qed.
Lemma join_app sep a b : a <> [] -> b <> [] -> join sep (a ++ b) = join sep a ++ sep ++ join sep b.
Proof.
  intros A B. induction a as [|x a IH]; [congruence|]. destruct a as [|y a].
  - cbn [app]. destruct b; [congruence|]. reflexivity.
  - cbn [app join] in *. rewrite IH by discriminate. now rewrite <- !app_assoc.
Qed.
Lemma needs_sep_app a b : b <> [] -> needs_sep (a ++ b) = needs_sep b.
Proof. intros N. destruct (exists_last N) as (u & c & ->). now rewrite app_assoc, !needs_sep_snoc. Qed.
Lemma sequence_ends l : Forall ends_ok l -> ends_ok (sequence l).
Proof.
  intros F. unfold sequence.
  assert (G : Forall (fun s => s <> [] /\ needs_sep s = true) (nonempty l)).
  { clear -F. induction F as [|s l S F IH]; [constructor|]. cbn [nonempty filter]. destruct s; auto. constructor; auto. split; [discriminate|apply S; discriminate]. }
  induction G as [|s r [S1 S2] G IH]; [intros N; now cbn in N|]. destruct r as [|y r]; [now intros _|].
  change (join #";" (s :: y :: r)) with (s ++ #";" ++ join #";" (y :: r)).
  assert (N : join #";" (y :: r) <> []).
  { inversion G as [|? ? [Y _] _]; subst. intros X. destruct r; cbn [join] in X; [congruence|]. apply app_eq_nil in X as [X _]. congruence. }
  intros _. rewrite app_assoc, needs_sep_app by exact N. now apply IH.
Qed.
Lemma nonempty_app a b : nonempty (a ++ b) = nonempty a ++ nonempty b.
Proof. apply filter_app. Qed.
Lemma nonempty_id l : Forall (fun s => s <> []) l -> nonempty l = l.
Proof. induction 1 as [|s l S F IH]; auto. cbn [nonempty filter]. destruct s; [congruence|]. fold (nonempty l). now rewrite IH. Qed.
Lemma join_nil_iff sep l : Forall (fun s => s <> []) l -> join sep l = [] -> l = [].
Proof. intros F. destruct F as [|s l S F]; auto. destruct l; cbn [join]; intros E; [congruence|]. apply app_eq_nil in E as [E _]. congruence. Qed.
Lemma nonempty_ne l : Forall (fun s => s <> []) (nonempty l).
Proof. apply Forall_forall. intros s I. apply filter_In in I as [_ I]. now destruct s. Qed.
(** sequences of sequences *)
Lemma sequence_flat ls : sequence (map sequence ls) = sequence (concat ls).
Proof.
  induction ls as [|l ls IH]; auto. cbn [map concat]. unfold sequence in *. rewrite nonempty_app. cbn [nonempty filter].
  destruct (join #";" (nonempty l)) as [|c s] eqn:E.
  - apply join_nil_iff in E; [|apply nonempty_ne]. rewrite E. exact IH.
  - rewrite <- E. fold (nonempty (map (fun l0 => join #";" (nonempty l0)) ls)).
    destruct (nonempty (concat ls)) as [|y r] eqn:F.
    + cbn [join] in IH. apply join_nil_iff in IH; [|apply nonempty_ne]. rewrite IH, app_nil_r. reflexivity.
    + assert (NE : nonempty l <> []) by (intros X; rewrite X in E; discriminate).
      rewrite join_app by (auto; discriminate). rewrite <- IH.
      destruct (nonempty (map (fun l0 => join #";" (nonempty l0)) ls)) as [|z q] eqn:G.
      * exfalso. change (join #";" []) with (@nil ascii) in IH. symmetry in IH. apply join_nil_iff in IH; [discriminate|]. rewrite <- F. apply nonempty_ne.
      * reflexivity.
Qed.
Lemma ends_lit a s : needs_sep s = true -> ends_ok (a ++ s).
Proof. intros H _. rewrite needs_sep_app; auto. intros ->. discriminate. Qed.

Lemma bool_text_eq b : bool_text b = if b then #"true" else #"false". Proof. destruct b; reflexivity. Qed.
Lemma make_literal_spec fi fv kind kt name id line std extra : itoa kind = kt ->
  make_literal fi (fv ++ itoa fi) kind name id line std extra = literal fi (head_entries fi fv kt name id line ++ extra ++ if std then [#"Stdlib:true"] else []).
Proof.
  intros K. unfold make_literal, literal, head_entries, per_file. rewrite K.
  set (h := [#"Kind:" ++ kt; #"Pkg:__xgo_pkg_" ++ itoa fi; #"Name:" ++ quote name; #"IdentityName:" ++ quote id; #"File:" ++ fv ++ itoa fi; #"Line:" ++ itoa line]).
  assert (H : join #"," h = #"Kind:" ++ kt ++ #",Pkg:__xgo_pkg_" ++ itoa fi ++ #",Name:" ++ quote name ++ #",IdentityName:" ++ quote id ++ #",File:" ++ (fv ++ itoa fi) ++ #",Line:" ++ itoa line).
  { subst h. cbn [join]. rewrite <- !app_assoc. reflexivity. }
  assert (J : join #"," (h ++ extra ++ if std then [#"Stdlib:true"] else []) =
              join #"," h ++ (match extra with [] => [] | _ => #"," ++ join #"," extra end) ++ (if std then #",Stdlib:true" else [])).
  { assert (NH : h <> []) by (subst h; discriminate). clearbody h. destruct extra as [|e es], std; cbn [app].
    - now rewrite join_snoc.
    - now rewrite !app_nil_r.
    - change (e :: es ++ [#"Stdlib:true"]) with ((e :: es) ++ [#"Stdlib:true"]). rewrite join_app, join_snoc by (auto; discriminate). rewrite <- !app_assoc. reflexivity.
    - rewrite !app_nil_r. now rewrite join_app by (auto; discriminate). }
  refine (eq_trans _ (eq_sym (f_equal (fun x => #"&__xgo_func_info_" ++ itoa fi ++ #"{" ++ x ++ #"}") J))).
  rewrite H. rewrite <- !app_assoc. reflexivity.
Qed.
Lemma is_generic_eq f : (match fi_rtype f with Some (_, g, _) => g | None => false end || fi_generic f) = is_generic f.
Proof. unfold is_generic. rewrite orb_comm. destruct (fi_rtype f) as [[[p []] t]|]; reflexivity. Qed.
Definition recv_known (f : finfo) : Prop := fi_recv f <> [] -> fi_rtype f <> None.
Lemma func_literal_spec fi std f : recv_known f ->
  func_literal fi std f = (declare (fi_var f) (literal fi (func_entries fi std f)), #"__xgo_register_" ++ itoa fi ++ #"(" ++ fi_var f ++ #")",
    if is_generic f then [] else fi_var f ++ #".Func=" ++ fi_identity f).
Proof.
  intros R. unfold func_literal, define_literal. rewrite is_generic_eq. change (per_file #"__xgo_file_" fi) with (#"__xgo_file_" ++ itoa fi).
  rewrite (make_literal_spec fi #"__xgo_file_" 0 #"0") by reflexivity.
  assert (E : func_extra f ++ (if std then [#"Stdlib:true"] else []) =
    (match fi_recv f, fi_rtype f with
     | r :: _, Some (ptr, _, t) => [#"RecvPtr:" ++ (if ptr then #"true" else #"false"); #"RecvType: " ++ quote t; #"RecvName:" ++ quote r]
     | _, _ => [] end) ++
    (if is_generic f then [#"Generic:true"] else []) ++
    (match fi_params f with [] => [] | _ => [#"ArgNames:[]string{" ++ join #"," (map quote (fi_params f)) ++ #"}"] end) ++
    (match fi_results f with [] => [] | _ => [#"ResNames:[]string{" ++ join #"," (map quote (fi_results f)) ++ #"}"] end) ++
    (if std then [#"Stdlib:true"] else [])).
  { unfold func_extra, quoted_names. rewrite is_generic_eq, bool_text_eq. destruct (fi_recv f) as [|r rs] eqn:Er.
    - destruct (fi_params f), (fi_results f); rewrite <- ?app_assoc; reflexivity.
    - destruct (fi_rtype f) as [[[p g] t]|] eqn:Et; [|exfalso; apply R; [rewrite Er; discriminate|exact Et]].
      destruct (fi_params f), (fi_results f); rewrite <- ?app_assoc; reflexivity. }
  unfold func_entries. rewrite <- E. unfold declare, per_file. destruct (is_generic f); rewrite <- ?app_assoc; reflexivity.
Qed.
Lemma var_literal_spec fi std v name line :
  var_literal fi std (v, name, line) = (declare v (literal fi (var_entries fi std name line)), #"__xgo_register_" ++ itoa fi ++ #"(" ++ v ++ #")", []).
Proof.
  unfold var_literal, define_literal, var_entries. change (per_file #"__xgo_file_var_" fi) with (#"__xgo_file_var_" ++ itoa fi).
  rewrite (make_literal_spec fi #"__xgo_file_var_" 1 #"1") by reflexivity. unfold declare, per_file. rewrite <- ?app_assoc. reflexivity.
Qed.
Lemma intf_literal_spec fi std v name line :
  intf_literal fi std (v, name, line) = (declare v (literal fi (intf_entries fi std name line)), #"__xgo_register_" ++ itoa fi ++ #"(" ++ v ++ #")", []).
Proof.
  unfold intf_literal, define_literal, intf_entries. change (per_file #"__xgo_file_" fi) with (#"__xgo_file_" ++ itoa fi).
  rewrite (make_literal_spec fi #"__xgo_file_" 0 #"0") by reflexivity. unfold declare, per_file. rewrite <- ?app_assoc. reflexivity.
Qed.
Definition ends_well (n : bytes) : Prop := forall u c, n = u ++ [c] -> c <> ";"%char /\ c <> ascii_of_nat 10.
Lemma ends_well_sep a n : needs_sep a = true -> ends_well n -> needs_sep (a ++ n) = true.
Proof.
  intros A H. destruct n as [|x n]; [now rewrite app_nil_r|]. rewrite needs_sep_app by discriminate.
  destruct (exists_last (l := x :: n)) as (u & c & E); [discriminate|]. rewrite E. rewrite needs_sep_snoc. destruct (H _ _ E) as [H1 H2].
  apply eqc_neq in H1. apply eqc_neq in H2. now rewrite H1, H2.
Qed.
Lemma literal_sep fi es : needs_sep (literal fi es) = true.
Proof. unfold literal. rewrite !app_assoc. rewrite needs_sep_app by discriminate. reflexivity. Qed.
Lemma literal_ne fi es : literal fi es <> []. Proof. intros E. pose proof (literal_sep fi es) as H. rewrite E in H. discriminate. Qed.
Lemma declare_sep v fi es : needs_sep (declare v (literal fi es)) = true.
Proof. unfold declare. rewrite !app_assoc. rewrite needs_sep_app by apply literal_ne. apply literal_sep. Qed.
Lemma paren_sep a : needs_sep (a ++ #")") = true. Proof. rewrite needs_sep_app by discriminate. reflexivity. Qed.
Lemma brace_sep a : needs_sep (a ++ #";}") = true. Proof. rewrite needs_sep_app by discriminate. reflexivity. Qed.
Lemma sep_ne s : needs_sep s = true -> s <> []. Proof. intros H ->. discriminate. Qed.
Lemma literals_spec fi std vars funcs intfs : Forall recv_known funcs ->
  map (fun l => fst (fst l)) (literals fi std vars funcs intfs) = map (fun m => declare (fst m) (literal fi (snd m))) (metadata fi std vars funcs intfs) /\
  map (fun l => snd (fst l)) (literals fi std vars funcs intfs) = map (fun m => #"__xgo_register_" ++ itoa fi ++ #"(" ++ fst m ++ #")") (metadata fi std vars funcs intfs) /\
  nonempty (map snd (literals fi std vars funcs intfs)) = map (fun f => fi_var f ++ #".Func=" ++ fi_identity f) (filter (fun f => negb (is_generic f)) funcs).
Proof.
  intros R. unfold literals, metadata. rewrite !map_app, !map_map. split; [|split].
  - apply (f_equal2 (@app _)); [|apply (f_equal2 (@app _))].
    + apply map_ext. intros [[v n] l]. now rewrite var_literal_spec.
    + apply map_ext_in. intros f I. rewrite Forall_forall in R. now rewrite func_literal_spec by auto.
    + apply map_ext. intros [[v n] l]. now rewrite intf_literal_spec.
  - apply (f_equal2 (@app _)); [|apply (f_equal2 (@app _))].
    + apply map_ext. intros [[v n] l]. now rewrite var_literal_spec.
    + apply map_ext_in. intros f I. rewrite Forall_forall in R. now rewrite func_literal_spec by auto.
    + apply map_ext. intros [[v n] l]. now rewrite intf_literal_spec.
  - rewrite !nonempty_app.
    assert (V : nonempty (map (fun x => snd (var_literal fi std x)) vars) = []).
    { clear. induction vars as [|[[v n] l] vars IH]; [reflexivity|]. cbn [map]. rewrite var_literal_spec. exact IH. }
    assert (I : nonempty (map (fun x => snd (intf_literal fi std x)) intfs) = []).
    { clear. induction intfs as [|[[v n] l] intfs IH]; [reflexivity|]. cbn [map]. rewrite intf_literal_spec. exact IH. }
    rewrite V, I, app_nil_r. cbn [app]. clear V I. induction R as [|f fs F R IH]; [reflexivity|]. cbn [map filter]. rewrite func_literal_spec by auto. cbn [snd].
    destruct (is_generic f); cbn [negb]; [exact IH|]. cbn [map].
    assert (N : fi_var f ++ #".Func=" ++ fi_identity f <> []) by (destruct (fi_var f); discriminate).
    unfold nonempty in *. cbn [filter]. destruct (fi_var f ++ #".Func=" ++ fi_identity f); [congruence|]. now rewrite IH.
Qed.
Lemma ends_forall l : Forall (fun s => needs_sep s = true) l -> Forall ends_ok l.
Proof. apply Forall_impl. intros s H _. exact H. Qed.
Lemma reg_code_spec fi std pkg file vars funcs intfs : Forall recv_known funcs -> Forall (fun f => ends_well (fi_identity f)) funcs ->
  reg_code fi pkg file (literals fi std vars funcs intfs) = join #";" (declarations fi std pkg file vars funcs intfs).
Proof.
  intros R W. destruct (literals_spec fi std vars funcs intfs R) as (L1 & L2 & L3).
  set (ls := literals fi std vars funcs intfs) in *. set (ms := metadata fi std vars funcs intfs) in *.
  set (vals := filter (fun f => negb (is_generic f)) funcs) in *.
  assert (D1 : Forall (fun s => needs_sep s = true) (map (fun l => fst (fst l)) ls)).
  { rewrite L1. apply Forall_map'. apply Forall_forall. intros m _. apply declare_sep. }
  assert (D2 : Forall (fun s => needs_sep s = true) (map (fun l => snd (fst l)) ls)).
  { rewrite L2. apply Forall_map'. apply Forall_forall. intros m _. rewrite !app_assoc. apply paren_sep. }
  assert (D3 : Forall ends_ok (map snd ls)).
  { apply Forall_forall. intros s I NE. assert (J : In s (nonempty (map snd ls))) by (apply filter_In; split; auto; destruct s; congruence).
    rewrite L3 in J. apply in_map_iff in J as (f & <- & J). apply filter_In in J as [J _]. rewrite app_assoc.
    apply ends_well_sep; [rewrite needs_sep_app by discriminate; reflexivity|]. rewrite Forall_forall in W. now apply W. }
  assert (S1 : stmts (map (fun l => fst (fst l)) ls) = sequence (map (fun l => fst (fst l)) ls)) by (apply stmts_spec, ends_forall, D1).
  assert (S2 : stmts (map (fun l => snd (fst l)) ls) = sequence (map (fun l => snd (fst l)) ls)) by (apply stmts_spec, ends_forall, D2).
  assert (S3 : stmts (map snd ls) = sequence (map snd ls)) by (apply stmts_spec, D3).
  set (i1 := match vals with [] => [] | _ => [init_func (map (fun f => fi_var f ++ #".Func=" ++ fi_identity f) vals)] end).
  set (i2 := init_func ((#"__xgo_init_" ++ itoa fi ++ #"()") :: map (fun m => #"__xgo_register_" ++ itoa fi ++ #"(" ++ fst m ++ #")") ms)).
  assert (I2 : needs_sep i2 = true) by (unfold i2, init_func; rewrite !app_assoc; apply brace_sep).
  assert (I1 : Forall (fun s => needs_sep s = true) i1).
  { unfold i1. destruct vals; [constructor|]. constructor; [|constructor]. unfold init_func. rewrite !app_assoc. apply brace_sep. }
  assert (R1 : reg_stmts fi ls = sequence ((map (fun l => fst (fst l)) ls) ++ i1 ++ [i2])).
  { unfold reg_stmts. rewrite S1, S2, S3.
    assert (E1 : match sequence (map snd ls) with [] => [] | _ => #"func init(){" ++ sequence (map snd ls) ++ #";}" end = sequence i1).
    { unfold sequence at 1 2. rewrite L3. unfold i1. destruct vals as [|f fs]; [reflexivity|]. clear -L3.
      set (l := map (fun f => fi_var f ++ #".Func=" ++ fi_identity f) (f :: fs)).
      destruct (join #";" l) eqn:E; [|].
      - apply join_nil_iff in E; [discriminate|]. subst l. apply Forall_map'. apply Forall_forall. intros x _. destruct (fi_var x); discriminate.
      - rewrite <- E. reflexivity. }
    assert (E2 : stmts [per_file #"__xgo_init_" fi ++ #"()"; sequence (map (fun l => snd (fst l)) ls)] = join #";" ((#"__xgo_init_" ++ itoa fi ++ #"()") :: map (fun m => #"__xgo_register_" ++ itoa fi ++ #"(" ++ fst m ++ #")") ms)).
    { rewrite stmts_spec.
      - change (per_file #"__xgo_init_" fi ++ #"()") with ((#"__xgo_init_" ++ itoa fi) ++ #"()"). rewrite <- app_assoc.
        set (a := #"__xgo_init_" ++ itoa fi ++ #"()").
        assert (A : a = sequence [a]) by reflexivity. rewrite A at 1.
        transitivity (sequence (map sequence [[a]; map (fun l => snd (fst l)) ls])); [reflexivity|]. rewrite sequence_flat. cbn [concat app]. rewrite app_nil_r.
        unfold sequence. rewrite nonempty_id; [now rewrite L2|]. constructor; [discriminate|]. eapply Forall_impl; [|exact D2]. apply sep_ne.
      - constructor; [intros _; rewrite app_assoc in *; change (#"()") with (#"(" ++ #")"); rewrite app_assoc; apply paren_sep|].
        constructor; [|constructor]. apply sequence_ends, ends_forall, D2. }
    rewrite E2, E1. fold (init_func ((#"__xgo_init_" ++ itoa fi ++ #"()") :: map (fun m => #"__xgo_register_" ++ itoa fi ++ #"(" ++ fst m ++ #")") ms)). fold i2.
    rewrite stmts_spec.
    - transitivity (sequence (map sequence [map (fun l => fst (fst l)) ls; i1; [i2]])); [reflexivity|]. rewrite sequence_flat. cbn [concat]. now rewrite app_nil_r.
    - constructor; [apply sequence_ends, ends_forall, D1|]. constructor; [apply sequence_ends, ends_forall, I1|]. constructor; [|constructor]. intros _. exact I2. }
  unfold reg_code. rewrite R1.
  assert (SE : Forall (fun s => needs_sep s = true) (stubs fi pkg file)).
  { unfold stubs. assert (Q : forall s, needs_sep (quote s) = true) by (intros s; unfold quote; rewrite app_assoc; rewrite needs_sep_app by discriminate; reflexivity).
    assert (QN : forall s, quote s <> []) by (intros s; apply sep_ne, Q).
    repeat constructor; rewrite ?app_assoc; rewrite needs_sep_app by (try discriminate; apply QN); try apply Q; reflexivity. }
  assert (ST : Forall (fun s => needs_sep s = true) (map (fun l => fst (fst l)) ls ++ i1 ++ [i2])).
  { apply Forall_app. split; auto. apply Forall_app. split; auto. }
  unfold declarations. fold ms vals i1. fold i2. rewrite <- L1.
  transitivity (sequence (stubs fi pkg file ++ map (fun l => fst (fst l)) ls ++ i1 ++ [i2])).
  2: { unfold sequence. rewrite nonempty_id; auto. apply Forall_app. split; (eapply Forall_impl; [|eassumption]); apply sep_ne. }
  pose proof (stmts_spec) as SS.
  set (st := stubs fi pkg file) in *. set (six := firstn 6 st). set (f1 := nth 6 st []). set (f2 := nth 7 st []).
  assert (EST : st = six ++ [f1; f2]) by reflexivity.
  assert (E6 : stmts six = sequence six). { apply stmts_spec, ends_forall. rewrite EST in SE. apply Forall_app in SE as [SE _]. exact SE. }
  transitivity (stmts [stmts six; f1; f2; sequence (map (fun l => fst (fst l)) ls ++ i1 ++ [i2])]).
  { subst six f1 f2 st. unfold stubs, per_file. cbn [firstn nth]. rewrite <- !app_assoc. reflexivity. }
  rewrite E6, stmts_spec.
  - transitivity (sequence (map sequence [six; [f1]; [f2]; map (fun l => fst (fst l)) ls ++ i1 ++ [i2]])); [reflexivity|]. rewrite sequence_flat. cbn [concat]. rewrite app_nil_r, EST, <- !app_assoc. reflexivity.
  - rewrite EST in SE. apply Forall_app in SE as [SA SB]. constructor; [apply sequence_ends, ends_forall, SA|]. inversion SB as [|? ? B1 SC]; subst. inversion SC as [|? ? B2 _]; subst.
    constructor; [intros _; exact B1|]. constructor; [intros _; exact B2|]. constructor; [|constructor]. apply sequence_ends, ends_forall, ST.
Qed.

(** *** The functions of a file *)
Lemma trap_one_fields fi i d lb line id t ops f : trap_one fi i d lb line id t = Some (ops, f) ->
  fi_identity f = id /\ fi_name f = d_name d /\ fi_line f = d_line d /\ fi_generic f = d_generic d /\ fi_rtype f = t /\ fi_var f = gname KFunc fi i /\
  (d_recv d = [] -> fi_recv f = []).
Proof.
  unfold trap_one. rewrite process_spec. destruct (1 <? _); [discriminate|].
  destruct (process_fields param_prefix None 0 _). destruct (process_fields result_prefix _ 0 _). intros T.
  match type of T with Some (?a, ?b) = Some _ => assert (Qi : f = b) by congruence end. rewrite Qi. repeat split. cbn [fi_recv]. intros ->. reflexivity.
Qed.
(** [traps]: for each wanted function, in order, its edits and its metadata. *)
Definition trapped (file_index : nat) (ds : list fdecl) (traps : list (list op * finfo)) : Prop :=
  length traps = length ds /\
  forall i d, nth_error ds i = Some d ->
    exists lb line id t x, d_body d = Some (lb, line) /\ identity d = Some (id, t) /\ nth_error traps i = Some x /\
      trap_one file_index i d lb line id t = Some x /\
      fi_identity (snd x) = id /\ fi_name (snd x) = d_name d /\ fi_line (snd x) = d_line d /\ fi_generic (snd x) = d_generic d /\ fi_rtype (snd x) = t.
Lemma trap_main_all pkg fi o ds : (o_main o = true \/ o_force o = true) -> forall r r', trap_funcs pkg fi o ds r = Some r' ->
  exists traps, r_ops r' = r_ops r ++ flat_map fst traps /\ r_infos r' = r_infos r ++ map snd traps /\
    length traps = length (filter (wanted pkg o) ds) /\
    forall i d, nth_error (filter (wanted pkg o) ds) i = Some d ->
    exists lb line id t x, d_body d = Some (lb, line) /\ identity d = Some (id, t) /\ nth_error traps i = Some x /\ trap_one fi (length (r_infos r) + i) d lb line id t = Some x.
Proof.
  intros M. induction ds as [|d ds IH]; intros r r' H.
  - injection H as <-. exists []. cbn. rewrite !app_nil_r. repeat split; auto. intros [|i] d; discriminate.
  - destruct (wanted pkg o d) eqn:W; [|cbn [filter]; rewrite W; apply IH; eapply trap_funcs_step; eauto].
    cbn [filter]. rewrite W. destruct (wanted_inv _ _ _ W) as (lb & line & id & t & B & E & I & Sl & X). cbn [trap_funcs] in H.
    rewrite B, E, I, Sl in H. cbn [negb] in H. replace (negb (o_main o) && negb (o_force o)) with false in H by (destruct M as [-> | ->]; [reflexivity|now rewrite andb_false_r]).
    destruct (trap_one fi (length (r_infos r)) d lb line id t) as [[ops info]|] eqn:T; [|discriminate].
    apply IH in H as (traps & H1 & H2 & H3 & H4). cbn [r_infos r_ops] in *. exists ((ops, info) :: traps). cbn [flat_map map fst snd length].
    rewrite H1, H2, H3, <- !app_assoc. repeat split; auto. intros [|i] d' N; cbn [nth_error] in N.
    + injection N as <-. exists lb, line, id, t, (ops, info). rewrite Nat.add_0_r. auto.
    + destruct (H4 i d' N) as (lb' & line' & id' & t' & x & Y). exists lb', line', id', t', x. cbn [nth_error]. rewrite app_length in Y. cbn [length] in Y.
      replace (length (r_infos r) + S i) with (length (r_infos r) + 1 + i) by lia. exact Y.
Qed.

(** *** The variables of a file *)
Definition typed (vs : list vdecl) : list vdecl := filter (fun v => match v_type v with [] => false | _ => true end) vs.
Fixpoint count {A} (i : nat) (l : list A) : list (nat * A) := match l with [] => [] | x :: r => (i, x) :: count (S i) r end.
Lemma rewrite_vars_spec test fi pe vs : forall i,
  rewrite_vars test fi i pe vs =
    (flat_map (fun iv => rewrite_var test fi (fst iv) pe (snd iv)) (count i (typed vs)),
     map (fun iv => (gname KVar fi (fst iv), v_name (snd iv), v_line (snd iv))) (count i (typed vs))).
Proof.
  induction vs as [|v vs IH]; intros i; auto. cbn [rewrite_vars typed filter]. destruct (v_type v) eqn:E; [apply IH|].
  rewrite IH. reflexivity.
Qed.
Lemma intf_infos_spec fi l : forall i, intf_infos fi i l = map (fun iv => (gname KIntf fi (fst iv), fst (snd iv), snd (snd iv))) (count i l).
Proof. induction l as [|[n line] l IH]; intros i; auto. cbn [intf_infos count map fst snd]. now rewrite IH. Qed.

(** In a file of a main package: the edits are those of every variable whose type is known,
    those of every wanted function, and, if there is anything to register, the declarations
    after the imports and the init function the runtime links to at the end. *)
Definition link_init (file_index : nat) : bytes :=
  let n := itoa file_index in
  [nlc] ++ #"//go:noinline" ++ [nlc] ++ #"func __xgo_init_" ++ n ++ #"(){__xgo_register_" ++ n ++ #"=__xgo_register_" ++ n ++ #";__xgo_trap_" ++ n ++ #"=__xgo_trap_" ++ n ++
  #";__xgo_trap_var_" ++ n ++ #"=__xgo_trap_var_" ++ n ++ #";__xgo_trap_varptr_" ++ n ++ #"=__xgo_trap_varptr_" ++ n ++ #";}".
Theorem C47_registered :
  forall o g ops,
    o_main o = true -> Forall (fun d => ends_well (d_name d)) (g_funcs g) -> file_ops o g = Some ops ->
    exists traps,
      trapped (g_index g) (filter (wanted (g_pkg g) o) (g_funcs g)) traps /\
      let vs := count 0 (typed (g_vars g)) in
      let vars := map (fun iv => (gname KVar (g_index g) (fst iv), v_name (snd iv), v_line (snd iv))) vs in
      let intfs := match o_mode o with NoMode => [] | _ => map (fun iv => (gname KIntf (g_index g) (fst iv), fst (snd iv), snd (snd iv))) (count 0 (g_intfs g)) end in
      ops = flat_map (fun iv => rewrite_var (g_test g) (g_index g) (fst iv) (g_pkg_end g) (snd iv)) vs ++ flat_map fst traps ++
        (match vars, traps, intfs with
         | [], [], [] => []
         | _, _, _ =>
             [OInsert (g_insert g) (#";" ++ join #";" (declarations (g_index g) (g_stdlib g) (g_pkg g) (g_path g) vars (map snd traps) intfs));
              OInsert (g_end g) (link_init (g_index g))]
         end).
Proof.
  intros o g ops M W H. unfold file_ops in H. rewrite rewrite_vars_spec in H.
  set (vs := count 0 (typed (g_vars g))) in *.
  destruct (trap_funcs _ _ o _ _) as [r|] eqn:T; [|discriminate]. injection H as <-.
  destruct (trap_main_all _ _ _ _ (or_introl M) _ _ T) as (traps & R1 & R2 & R3 & R4). cbn [r_ops r_infos app length] in *.
  assert (R4' : trapped (g_index g) (filter (wanted (g_pkg g) o) (g_funcs g)) traps).
  { split; auto. intros i d N. destruct (R4 i d N) as (lb & line & id & t & [xo xi] & Y1 & Y2 & Y3 & Y4). exists lb, line, id, t, (xo, xi).
    destruct (trap_one_fields _ _ _ _ _ _ _ _ _ Y4) as (A & B & C & D & E & _). cbn [plus] in Y4. repeat split; auto. }
  exists traps. split; [exact R4'|].
  assert (K : Forall recv_known (map snd traps) /\ Forall (fun f => ends_well (fi_identity f)) (map snd traps)).
  { assert (G : forall f, In f (map snd traps) -> recv_known f /\ ends_well (fi_identity f)).
    { intros f I. apply In_nth_error in I as (i & I). assert (L : i < length (map snd traps)) by (apply nth_error_Some; congruence). rewrite map_length, R3 in L.
      destruct (nth_error (filter (wanted (g_pkg g) o) (g_funcs g)) i) as [d|] eqn:N; [|apply nth_error_None in N; unfold bytes in *; lia].
      destruct (R4 i d N) as (lb & line & id & t & [xo xi] & Y1 & Y2 & Y3 & Y4).
      rewrite nth_error_map, Y3 in I. cbn [option_map snd] in I. injection I as <-.
      destruct (trap_one_fields _ _ _ _ _ _ _ _ _ Y4) as (A & B & C & D & E & _ & F).
      apply nth_error_In in N. apply filter_In in N as [N1 N2]. split.
      - intros NE X. apply NE, F. assert (TN : t = None) by congruence. rewrite TN in Y2. pose proof (C47_identity d) as ID. destruct (d_recv d) as [|[ff x] [|y l]]; [reflexivity| |congruence].
        destruct ID as (I1 & I2 & I3). exfalso. destruct (parse_receiver x) as [[[p gg] n]|] eqn:P.
        + apply parse_receiver_iff in P. destruct p; [rewrite (I2 _ _ P) in Y2|rewrite (I1 _ _ P) in Y2]; discriminate.
        + rewrite I3 in Y2; [discriminate|]. intros p gg n Q. apply parse_receiver_iff in Q. congruence.
      - rewrite A. rewrite Forall_forall in W. specialize (W d N1).
        assert (NN : d_name d <> []).
        { apply andb_prop in N2 as [N2 _]. unfold eligible in N2. destruct (d_body d); [|discriminate]. intros X. rewrite X in N2. discriminate. }
        assert (EX : exists u, id = u ++ d_name d).
        { unfold identity in Y2. destruct (d_recv d) as [|[ff x] [|y l]]; [injection Y2 as <- _; now exists []| |discriminate].
          destruct (parse_receiver x) as [[[p gg] n]|]; [|discriminate]. injection Y2 as <- _. eexists. reflexivity. }
        destruct EX as (u & ->). destruct (exists_last NN) as (w & c & EW). intros u' c' EU. rewrite EW, app_assoc in EU. apply app_inj_tail in EU as [_ <-]. now apply (W w c). }
    split; apply Forall_forall; intros f I; now apply G. }
  destruct K as [K1 K2]. cbv zeta.
  rewrite R1, R2, M. rewrite intf_infos_spec. f_equal. f_equal. cbn [snd].
  set (vars := map (fun iv => (gname KVar (g_index g) (fst iv), v_name (snd iv), v_line (snd iv))) vs).
  set (intfs := match o_mode o with NoMode => [] | _ => _ end). clearbody vars intfs.
  unfold register. rewrite reg_code_spec by auto.
  assert (Z : literals (g_index g) (g_stdlib g) vars (map snd traps) intfs = [] <-> vars = [] /\ traps = [] /\ intfs = []).
  { unfold literals. split.
    - intros E. apply app_eq_nil in E as [E1 E]. apply app_eq_nil in E as [E2 E3]. apply map_eq_nil in E1, E2, E3. apply map_eq_nil in E2. auto.
    - intros (-> & -> & ->). reflexivity. }
  destruct (literals (g_index g) (g_stdlib g) vars (map snd traps) intfs) as [|l0 ls].
  - destruct (proj1 Z eq_refl) as (-> & -> & ->). reflexivity.
  - assert (NZ : ~ (vars = [] /\ traps = [] /\ intfs = [])) by (intros X; apply Z in X; discriminate).
    assert (LI : forall (a b : list op), a = b -> a = match vars, traps, intfs with [], [], [] => [] | _, _, _ => b end).
    { intros a b ->. destruct vars, traps, intfs; auto. exfalso. now apply NZ. }
    apply LI. unfold link_init, per_file, nlc. rewrite <- ?app_assoc. reflexivity.
Qed.
Print Assumptions C47_registered.

(** ** C52: the metadata variables of all files of a package *)
Lemma nodup_app_intro {A} (a b : list A) : NoDup a -> NoDup b -> (forall x, In x a -> ~ In x b) -> NoDup (a ++ b).
Proof.
  induction 1 as [|x a N Na IH]; auto. intros B D. cbn [app]. constructor.
  - intros I. apply in_app_or in I as [I|I]; [auto|]. apply (D x); [now left|auto].
  - apply IH; auto. intros y I. apply D. now right.
Qed.
Lemma gname_nodup k fi n i : numbered k = true -> NoDup (map (gname k fi) (seq i n)).
Proof.
  intros K. revert i. induction n as [|n IH]; intros i; [constructor|]. cbn [seq map]. constructor; auto.
  intros I. apply in_map_iff in I as (j & E & J). apply C52_generated_names_distinct in E as (_ & _ & E). apply in_seq in J. specialize (E K). lia.
Qed.
Theorem C52_all_files :
  forall pkg o quota i files rs,
    trap_files pkg o quota i files = Some rs -> NoDup (map fi_var (flat_map r_infos rs)).
Proof.
  intros pkg o quota i files rs H.
  assert (G : NoDup (map fi_var (flat_map r_infos rs)) /\ forall v, In v (map fi_var (flat_map r_infos rs)) -> exists f k, i <= f /\ v = gname KFunc f k); [|tauto].
  revert quota i rs H. induction files as [|ds files IH]; intros quota i rs H; cbn [trap_files] in H.
  - injection H as <-. split; [constructor|intros v []].
  - destruct (trap_funcs pkg i o ds _) as [r|] eqn:T; [|discriminate].
    destruct (trap_files pkg o (r_quota r) (S i) files) as [rs'|] eqn:E; [|discriminate]. cbn [option_map] in H. injection H as <-.
    destruct (IH _ _ _ E) as [N F]. cbn [flat_map]. rewrite map_app. apply trap_infos in T; [|reflexivity]. rewrite T. split.
    + apply nodup_app_intro; auto; [now apply gname_nodup|]. intros v V V'. apply in_map_iff in V as (k & <- & _). destruct (F _ V') as (f & k' & L & X).
      apply C52_generated_names_distinct in X as (_ & X & _). lia.
    + intros v V. apply in_app_or in V as [V|V]; [apply in_map_iff in V as (k & <- & _); exists i, k; auto|]. destruct (F v V) as (f & k & L & ->). exists f, k. split; auto. lia.
Qed.
Print Assumptions C52_all_files.

(** ** C57: references to variables *)
(** A reference to a package variable in the source, with what precedes the name (a package
    qualifier), the accessor's prefix, and the code up to the next reference: a read, the
    receiver of a method with pointer receiver, the operand of &, or &x.f with a pointer x. *)
Inductive refkind := RValue | RMethod | RAddress (gap : bytes) | RField (gap : bytes).
Record piece := { p_kind : refkind; p_qual : bytes; p_prefix : bytes; p_name : bytes; p_code : bytes }.
Definition amp (k : refkind) : bytes := match k with RAddress g | RField g => #"&" ++ g | _ => [] end.
Definition written (p : piece) : bytes := amp (p_kind p) ++ p_qual p ++ p_name p ++ p_code p.
(** What is compiled instead: a call of the accessor of the value, or of the address. *)
Definition compiled (p : piece) : bytes :=
  (match p_kind p with RField g => #"&" ++ g | _ => [] end) ++ p_qual p ++ p_prefix p ++ p_name p ++
  (match p_kind p with RValue | RField _ => #"_xgo_get()" | _ => #"_xgo_get_addr()" end) ++ p_code p.
(** The references found in the text, by their positions. *)
Fixpoint refs_at (off : nat) (ps : list piece) : list (bytes * var_ref) :=
  match ps with
  | [] => []
  | p :: r =>
      let x := off + length (amp (p_kind p)) in
      let s := x + length (p_qual p) in
      (p_prefix p,
       {| vr_addr := match p_kind p with RAddress _ | RField _ => Some (off, x) | _ => None end;
          vr_ptr := match p_kind p with RValue | RField _ => false | _ => true end;
          vr_start := s; vr_end := s + length (p_name p);
          vr_field := match p_kind p with RField _ => true | _ => false end |}) :: refs_at (off + length (written p)) r
  end.

Lemma queue_all old ops : Forall (in_text old) (edits_of old ops) -> ~ In OBytes ops -> forall q, queue old q ops = Some (q ++ edits_of old ops).
Proof.
  induction ops as [|o ops IH]; intros F N q; [cbn; now rewrite app_nil_r|].
  cbn [edits_of flat_map] in F. apply Forall_app in F as [F1 F2]. cbn [queue edits_of flat_map]. fold (edits_of old ops).
  assert (S : step old q o = Some (q ++ asks old o)).
  { destruct o as [p n|s e|s e n|]; cbn [step asks].
    - inversion F1 as [|? ? V _]; subst. unfold in_text in V. cbn in V. destruct (Nat.ltb_spec (length old) p); [lia|reflexivity].
    - destruct e as [e|]; cbn [end_of] in *; inversion F1 as [|? ? V _]; subst; unfold in_text in V; cbn in V;
        (match goal with |- (if ?b then _ else _) = _ => destruct b eqn:B; [apply orb_prop in B as [B|B]; apply Nat.ltb_lt in B; lia|reflexivity] end).
    - destruct e as [e|]; cbn [end_of] in *; inversion F1 as [|? ? V _]; subst; unfold in_text in V; cbn in V;
        (match goal with |- (if ?b then _ else _) = _ => destruct b eqn:B; [apply orb_prop in B as [B|B]; apply Nat.ltb_lt in B; lia|reflexivity] end).
    - exfalso. apply N. now left. }
  rewrite S, IH; auto; [now rewrite <- app_assoc|]. intros I. apply N. now right.
Qed.
Lemma perm_sorted_eq a : forall b, sorted a -> sorted b -> Permutation.Permutation a b -> ForallOrdPairs (fun x y => e_start x < e_start y) a -> a = b.
Proof.
  induction a as [|x a IH]; intros b Sa Sb P I.
  - apply Permutation.Permutation_nil in P. now subst.
  - destruct b as [|y b]; [apply Permutation.Permutation_sym, Permutation.Permutation_nil in P; discriminate|].
    inversion I as [|? ? Ix Ia]; subst. inversion Sa as [|? ? Fa Sa']; subst. inversion Sb as [|? ? Fb Sb']; subst.
    assert (x = y).
    { assert (J : In y (x :: a)) by (eapply Permutation.Permutation_in; [apply Permutation.Permutation_sym; exact P|now left]).
      destruct J as [J|J]; auto. rewrite Forall_forall in Ix. specialize (Ix y J).
      assert (K : In x (y :: b)) by (eapply Permutation.Permutation_in; [exact P|now left]). destruct K as [K|K]; auto.
      rewrite Forall_forall in Fb. specialize (Fb x K). apply le_spec in Fb. lia. }
    subst y. f_equal. apply IH; auto. now apply Permutation.Permutation_cons_inv in P.
Qed.
(** the edits of the references in source order *)
Definition ref_edits (off : nat) (ps : list piece) : list edit := flat_map (fun r => edits_of [] (rewrite_ref (fst r) (snd r))) (refs_at off ps).
Lemma edits_of_refs old l : edits_of old (flat_map (fun r => rewrite_ref (fst r) (snd r)) l) = flat_map (fun r => edits_of [] (rewrite_ref (fst r) (snd r))) l.
Proof.
  induction l as [|[p v] l IH]; auto. cbn [flat_map fst snd]. unfold edits_of in *. rewrite flat_map_app, IH. f_equal.
  unfold rewrite_ref. destruct (vr_addr v) as [[a x]|]; [destruct (vr_field v)|]; destruct p; reflexivity.
Qed.
Definition piece_edits (off : nat) (p : piece) : list edit :=
  let x := off + length (amp (p_kind p)) in
  let s := x + length (p_qual p) in
  (match p_kind p with RAddress _ => [Edit off x []] | _ => [] end) ++ (match p_prefix p with [] => [] | _ => [Edit s s (p_prefix p)] end) ++
  [Edit (s + length (p_name p)) (s + length (p_name p)) (match p_kind p with RValue | RField _ => #"_xgo_get()" | _ => #"_xgo_get_addr()" end)].
Lemma ref_edits_cons off p ps : ref_edits off (p :: ps) = piece_edits off p ++ ref_edits (off + length (written p)) ps.
Proof.
  unfold ref_edits. cbn [refs_at flat_map fst snd]. f_equal. unfold piece_edits, rewrite_ref. cbn [vr_addr vr_field vr_start vr_end vr_ptr].
  destruct (p_kind p); destruct (p_prefix p); reflexivity.
Qed.
Definition good (p : piece) : Prop := p_name p <> [] /\ p_code p <> [].
Lemma len_ne {A} (l : list A) : l <> [] -> 0 < length l. Proof. destruct l; [congruence|cbn; lia]. Qed.
Lemma amp_len g : length (amp (RAddress g)) = S (length g). Proof. reflexivity. Qed.
Lemma piece_range off p : good p -> Forall (fun e => off <= e_start e /\ e_start e <= e_end e /\ e_end e < off + length (written p)) (piece_edits off p) /\ ForallOrdPairs (fun x y => e_start x < e_start y) (piece_edits off p).
Proof.
  intros [N C]. apply len_ne in N, C. unfold written, piece_edits. rewrite !app_length.
  split.
  - apply Forall_app. split; [destruct (p_kind p) as [| |g|g]; constructor; cbn; [lia|constructor]|].
    apply Forall_app. split; [destruct (p_prefix p); constructor; cbn; [lia|constructor]|]. constructor; [cbn; lia|constructor].
  - destruct (p_kind p) as [| |g|g]; destruct (p_prefix p); cbn [app]; repeat (match goal with |- ForallOrdPairs _ _ => constructor | |- Forall _ _ => constructor end); cbn [e_start]; rewrite ?amp_len; unfold bytes in *; lia.
Qed.
Lemma fop_app {A} (R : A -> A -> Prop) a b : ForallOrdPairs R a -> ForallOrdPairs R b -> (forall x y, In x a -> In y b -> R x y) -> ForallOrdPairs R (a ++ b).
Proof.
  induction 1 as [|x a F Fa IH]; auto. intros B X. cbn [app]. constructor.
  - apply Forall_app. split; auto. apply Forall_forall. intros y I. apply X; [now left|auto].
  - apply IH; auto. intros u v I J. apply X; auto. now right.
Qed.
Lemma refs_range ps : Forall good ps -> forall off,
  Forall (fun e => off <= e_start e /\ e_start e <= e_end e /\ e_end e <= off + length (flat_map written ps)) (ref_edits off ps) /\ ForallOrdPairs (fun x y => e_start x < e_start y) (ref_edits off ps).
Proof.
  induction 1 as [|p ps G F IH]; intros off; [split; constructor|]. rewrite ref_edits_cons. cbn [flat_map]. rewrite app_length.
  destruct (piece_range off p G) as [A B]. destruct (IH (off + length (written p))) as [C D]. split.
  - apply Forall_app. split; [eapply Forall_impl; [|exact A]|eapply Forall_impl; [|exact C]]; cbn; intros; unfold bytes in *; lia.
  - apply fop_app; auto. intros x y I J. rewrite Forall_forall in A, C. specialize (A x I). specialize (C y J). lia.
Qed.
Lemma fop_sorted l : ForallOrdPairs (fun x y => e_start x < e_start y) l -> sorted l.
Proof. induction 1 as [|x l F L IH]; constructor; auto. eapply Forall_impl; [|exact F]. intros y Y. apply le_spec. now left. Qed.
Lemma apply_insert off pre a e new r rest : e = off + length (pre ++ a) ->
  apply_sorted off (pre ++ a ++ rest) (Edit e e new :: r) = option_map (fun t => (pre ++ a) ++ new ++ t) (apply_sorted e rest r).
Proof.
  intros ->. cbn [apply_sorted e_start e_end e_new]. destruct (Nat.ltb_spec (off + length (pre ++ a)) off); [lia|].
  replace (off + length (pre ++ a) - off) with (length (pre ++ a)) by lia. rewrite app_assoc, skipn_app, skipn_all, Nat.sub_diag, firstn_app, firstn_all, Nat.sub_diag. cbn [skipn firstn app].
  rewrite app_nil_r. now destruct (apply_sorted _ rest r).
Qed.
Lemma apply_delete off pre d e s r rest : s = off + length pre -> e = s + length d ->
  apply_sorted off (pre ++ d ++ rest) (Edit s e [] :: r) = option_map (fun t => pre ++ t) (apply_sorted e rest r).
Proof.
  intros -> ->. cbn [apply_sorted e_start e_end e_new]. destruct (Nat.ltb_spec (off + length pre) off); [lia|].
  replace (off + length pre - off) with (length pre) by lia. replace (off + length pre + length d - off) with (length (pre ++ d)) by (rewrite app_length; lia).
  rewrite firstn_app, firstn_all, Nat.sub_diag. cbn [firstn]. rewrite app_nil_r. rewrite (app_assoc pre d rest), skipn_app, skipn_all, Nat.sub_diag. cbn [skipn app].
  now destruct (apply_sorted _ rest r).
Qed.
Lemma apply_refs ps : forall off pre, apply_sorted off (pre ++ flat_map written ps) (ref_edits (off + length pre) ps) = Some (pre ++ flat_map compiled ps).
Proof.
  induction ps as [|p ps IH]; intros off pre; [reflexivity|].
  rewrite ref_edits_cons. cbn [flat_map].
  assert (STEP : forall off' pre' (suf : bytes) q, off' + length pre' + length (p_name p) = q ->
    apply_sorted off' (pre' ++ (p_name p ++ p_code p) ++ flat_map written ps) (Edit q q suf :: ref_edits (q + length (p_code p)) ps) =
    Some (pre' ++ p_name p ++ suf ++ p_code p ++ flat_map compiled ps)).
  { intros off' pre' suf q E. rewrite <- app_assoc. rewrite apply_insert by (rewrite app_length; lia).
    rewrite IH. cbn [option_map]. now rewrite <- !app_assoc. }
  assert (STEP2 : forall off' pre' q, off' + length pre' = q ->
    apply_sorted off' (pre' ++ (p_name p ++ p_code p) ++ flat_map written ps)
      ((match p_prefix p with [] => [] | _ => [Edit q q (p_prefix p)] end) ++
       [Edit (q + length (p_name p)) (q + length (p_name p)) (match p_kind p with RValue | RField _ => #"_xgo_get()" | _ => #"_xgo_get_addr()" end)] ++ ref_edits (q + length (p_name p) + length (p_code p)) ps) =
    Some (pre' ++ p_prefix p ++ p_name p ++ (match p_kind p with RValue | RField _ => #"_xgo_get()" | _ => #"_xgo_get_addr()" end) ++ p_code p ++ flat_map compiled ps)).
  { intros off' pre' q E. destruct (p_prefix p) as [|c pf] eqn:Ep.
    - cbn [app]. rewrite <- (STEP off' pre' _ (q + length (p_name p))) by lia. reflexivity.
    - cbn [app]. rewrite (app_assoc pre'). rewrite <- (app_nil_r pre') at 1. rewrite <- app_assoc with (m := []). cbn [app].
      replace ((pre' ++ p_name p ++ p_code p) ++ flat_map written ps) with (pre' ++ [] ++ ((p_name p ++ p_code p) ++ flat_map written ps)) by (cbn [app]; now rewrite <- !app_assoc).
      rewrite apply_insert by (rewrite app_nil_r; lia).
      pose proof (STEP q [] (match p_kind p with RValue | RField _ => #"_xgo_get()" | _ => #"_xgo_get_addr()" end) (q + length (p_name p)) ltac:(cbn [length]; lia)) as S. cbn [app] in S. rewrite S. cbn [option_map]. rewrite app_nil_r. reflexivity. }
  assert (WE : written p = amp (p_kind p) ++ p_qual p ++ p_name p ++ p_code p) by reflexivity.
  assert (CE : compiled p = (match p_kind p with RField g => #"&" ++ g | _ => [] end) ++ p_qual p ++ p_prefix p ++ p_name p ++
    (match p_kind p with RValue | RField _ => #"_xgo_get()" | _ => #"_xgo_get_addr()" end) ++ p_code p) by reflexivity.
  rewrite WE, CE. unfold piece_edits. rewrite !app_length.
  set (am := amp (p_kind p)). set (o := off + length pre).
  destruct (p_kind p) as [| |g|g] eqn:K; cbn [amp] in am; subst am.
  - assert (EQ : off + length (pre ++ p_qual p) = o + length (p_qual p)) by (rewrite app_length; subst o; lia). pose proof (STEP2 _ _ _ EQ) as S. cbn [app length]. rewrite <- !app_assoc in *.
    replace (o + 0 + length (p_qual p)) with (o + length (p_qual p)) by lia.
    replace (o + (0 + (length (p_qual p) + (length (p_name p) + length (p_code p))))) with (o + length (p_qual p) + length (p_name p) + length (p_code p)) by lia. exact S.
  - assert (EQ : off + length (pre ++ p_qual p) = o + length (p_qual p)) by (rewrite app_length; subst o; lia). pose proof (STEP2 _ _ _ EQ) as S. cbn [app length]. rewrite <- !app_assoc in *.
    replace (o + 0 + length (p_qual p)) with (o + length (p_qual p)) by lia.
    replace (o + (0 + (length (p_qual p) + (length (p_name p) + length (p_code p))))) with (o + length (p_qual p) + length (p_name p) + length (p_code p)) by lia. exact S.
  - set (x := o + length (#"&" ++ g)).
    rewrite <- !app_assoc. cbn [app].
    replace (pre ++ #"&" ++ g ++ p_qual p ++ p_name p ++ p_code p ++ flat_map written ps) with (pre ++ (#"&" ++ g) ++ (p_qual p ++ (p_name p ++ p_code p) ++ flat_map written ps)) by (rewrite <- !app_assoc; reflexivity).
    rewrite (apply_delete off pre (#"&" ++ g) x) by (subst x o; reflexivity).
    pose proof (STEP2 x (p_qual p) (x + length (p_qual p)) eq_refl) as S. cbn [app] in S.
    replace (o + (length (#"&" ++ g) + (length (p_qual p) + (length (p_name p) + length (p_code p))))) with (x + length (p_qual p) + length (p_name p) + length (p_code p)) by (subst x; lia).
    rewrite S. reflexivity.
  - assert (EQ : off + length (pre ++ (#"&" ++ g) ++ p_qual p) = o + length (#"&" ++ g) + length (p_qual p)) by (rewrite !app_length; subst o; lia). pose proof (STEP2 _ _ _ EQ) as S. cbn [app].
    replace (o + (length (#"&" ++ g) + (length (p_qual p) + (length (p_name p) + length (p_code p))))) with (o + length (#"&" ++ g) + length (p_qual p) + length (p_name p) + length (p_code p)) by lia.
    rewrite <- !app_assoc in *. exact S.
Qed.
(** In whatever order the references of a file are visited, the file compiled is the source
    with each of them replaced by its accessor call and nothing else changed. *)
Theorem C57_references :
  forall code ps order,
    Forall good ps -> Permutation.Permutation (refs_at (length code) ps) order ->
    exists q, queue (code ++ flat_map written ps) [] (flat_map (fun r => rewrite_ref (fst r) (snd r)) order) = Some q /\
              bytes_of (code ++ flat_map written ps) q = Some (code ++ flat_map compiled ps).
Proof.
  intros code ps order G P. set (old := code ++ flat_map written ps).
  assert (PE : Permutation.Permutation (ref_edits (length code) ps) (edits_of old (flat_map (fun r => rewrite_ref (fst r) (snd r)) order))).
  { rewrite edits_of_refs. unfold ref_edits. now apply Permutation.Permutation_flat_map. }
  destruct (refs_range ps G (length code)) as [A B].
  assert (V : Forall (in_text old) (edits_of old (flat_map (fun r => rewrite_ref (fst r) (snd r)) order))).
  { eapply Permutation.Permutation_Forall; [exact PE|]. eapply Forall_impl; [|exact A]. cbn. intros e E. unfold in_text, old. rewrite app_length. unfold bytes in *. lia. }
  rewrite queue_all; auto.
  - cbn [app]. eexists. split; [reflexivity|]. unfold bytes_of.
    assert (EQ : ref_edits (length code) ps = sort_stable (edits_of old (flat_map (fun r => rewrite_ref (fst r) (snd r)) order))).
    { apply perm_sorted_eq; auto using sort_sorted, fop_sorted. eapply Permutation.perm_trans; [exact PE|apply sort_perm]. }
    rewrite <- EQ. apply (apply_refs ps 0 code).
  - clear. intros I. apply in_flat_map in I as ([p v] & _ & I). unfold rewrite_ref in I. cbn [fst snd] in I. apply in_app_or in I as [I|I].
    + destruct (vr_addr v) as [[a x]|]; [|destruct I]. destruct (vr_field v); [destruct I|]. destruct I as [I|[]]; discriminate.
    + apply in_app_or in I as [I|[I|[]]]; [|discriminate]. destruct p; [destruct I|destruct I as [I|[]]; discriminate].
Qed.
Print Assumptions C57_references.
Example C57_example :
  let ps := [{| p_kind := RValue; p_qual := []; p_prefix := []; p_name := #"x"; p_code := #" + f(" |};
             {| p_kind := RAddress #" "; p_qual := #"b."; p_prefix := []; p_name := #"Y"; p_code := #", " |};
             {| p_kind := RField []; p_qual := []; p_prefix := #"T_"; p_name := #"TestP"; p_code := #".f)" |}] in
  Forall good ps /\ flat_map written ps = #"x + f(& b.Y, &TestP.f)" /\ flat_map compiled ps = #"x_xgo_get() + f(b.Y_xgo_get_addr(), &T_TestP_xgo_get().f)".
Proof. cbv zeta. split; [repeat constructor; discriminate|split; reflexivity]. Qed.
(** What the accessors do: take the variable (or its address), let the trap see the
    variable and replace what was taken, return it. *)
Theorem C57_accessors :
  forall test fi i pe v, exists imports refs,
    rewrite_var test fi i pe v =
      imports ++ [OInsert (v_end v) #";"; OInsert (v_end v)
        (#"func " ++ getter test (v_name v) false ++ #"() " ++ v_type v ++ #" {__mock_res := " ++ v_name v ++ #";__xgo_trap_var_" ++ itoa fi ++ #"(" ++ gname KVar fi i ++ #",&" ++ v_name v ++ #",&__mock_res);return __mock_res;};" ++
         #"func " ++ getter test (v_name v) true ++ #"() *" ++ v_type v ++ #" {__mock_res := &" ++ v_name v ++ #";__xgo_trap_varptr_" ++ itoa fi ++ #"(" ++ gname KVar fi i ++ #",&" ++ v_name v ++ #",&__mock_res);return __mock_res;}")] ++ refs /\
    imports = map (fun p => OInsert pe (#";import " ++ fst p ++ #" " ++ quote (snd p))) (v_imports v) /\
    refs = flat_map (rewrite_ref (if test && has_prefix (v_name v) #"Test" then #"T_" else [])) (v_refs v).
Proof.
  intros test fi i pe v. eexists. eexists. split; [|split; reflexivity]. unfold rewrite_var. do 3 f_equal. f_equal. f_equal. unfold gen_code, getter, gname, info_var. cbn [numbered stem].
  generalize (var_prefix test (v_name v)). intros p. rewrite <- !app_assoc. reflexivity.
Qed.
Print Assumptions C57_accessors.
(** The file of C34's example meets the hypotheses of C47_registered and has a variable and a
    function; two files of a package, of C52_all_files. *)
Example C47_registered_example :
  o_main all_opts = true /\ Forall (fun d => ends_well (d_name d)) (g_funcs ex_file) /\ file_ops all_opts ex_file <> None /\
  length (filter (wanted (g_pkg ex_file) all_opts) (g_funcs ex_file)) = 1 /\ length (typed (g_vars ex_file)) = 1.
Proof.
  repeat split; try (vm_compute; congruence).
  assert (G : forall d, In d (g_funcs ex_file) -> ends_well (d_name d)).
  { intros d [<-|[]] u c E. change (d_name _) with ([] ++ [hd "a"%char #"f"]) in E. apply app_inj_tail in E as [_ <-]. split; discriminate. }
  apply Forall_forall. exact G.
Qed.
Example C52_files_example :
  match trap_package #"a" all_opts [map fn [#"f"; #"g"]; [fn #"h"]] with
  | Some rs => map fi_var (flat_map r_infos rs) = [#"__xgo_func_info_0_0"; #"__xgo_func_info_0_1"; #"__xgo_func_info_1_0"]
  | None => False
  end.
Proof. vm_compute. reflexivity. Qed.
