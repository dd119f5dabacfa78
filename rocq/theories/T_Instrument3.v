(** * C48 (quotas), C49-C52.  Model: M_Instrument. *)
From Coq Require Import Ascii String List Arith ZArith Bool Lia.
From Verif Require Import M_Str M_Edit M_Version M_Coverage M_Instrument T_Edit T_Coverage T_Instrument T_Instrument2.
Import ListNotations.
Open Scope nat_scope.

(** ** C48: the quotas *)
(** Outside the main package, when not everything is wanted: exactly the first 16 wanted
    functions of each file, and no more than 96 in the package, are left to the compiler to
    instrument; no file is edited. *)
Theorem C48_quotas :
  forall pkg o files rs,
    o_main o = false -> o_force o = false -> o_mode o <> All ->
    trap_package pkg o files = Some rs ->
    map r_extras rs = within_quota 96 (map (chosen pkg o) files) /\ Forall (fun r => r_infos r = []) rs.
Proof.
  intros pkg o files rs M F A H. unfold trap_package, max_per_pkg in H. split; [eapply trap_files_quota; eauto|eapply trap_files_infos; eauto].
Qed.
Print Assumptions C48_quotas.
(** So a mocked function that comes late in its file is not instrumented. *)
Definition fn (n : bytes) : fdecl := {|
  d_name := n; d_body := Some (1, 1); d_nosplit := false; d_recv := []; d_params := []; d_params_close := 0; d_results := []; d_results_paren := false; d_line := 1; d_generic := false |}.
Definition mock_all : opts := {| o_main := false; o_force := false; o_mode := NoMode; o_mock := fun _ => true; o_mock_method := fun _ _ => false; o_cfg := None |}.
Theorem C48_late_functions_refuted :
  ~ (forall pkg o files rs d ds r i,
      trap_package pkg o files = Some rs -> nth_error files i = Some ds -> nth_error rs i = Some r -> In d ds ->
      can_be pkg d -> is_mocked o d -> In (id_of d) (map fi_identity (r_infos r) ++ r_extras r)).
Proof.
  intros H. set (names := map (fun i => #"f" ++ itoa i) (seq 0 17)).
  destruct (trap_package #"a" mock_all [map fn names]) as [rs|] eqn:E; [|vm_compute in E; discriminate].
  destruct rs as [|r rs]; [vm_compute in E; discriminate|].
  specialize (H #"a" mock_all [map fn names] (r :: rs) (fn #"f16") (map fn names) r 0 E eq_refl eq_refl).
  assert (I : In (fn #"f16") (map fn names)) by (apply in_map; vm_compute; tauto).
  specialize (H I). vm_compute in E. injection E as <- <-.
  assert (X : can_be #"a" (fn #"f16")) by (apply eligible_spec; reflexivity).
  specialize (H X (or_introl eq_refl)). vm_compute in H. repeat (destruct H as [H|H]; [discriminate|]). destruct H.
Qed.
Print Assumptions C48_late_functions_refuted.
Example C48_example :
  exists rs, trap_package #"a" mock_all [map fn [#"f"; #"g"]; [fn #"init"; fn #"h"]] = Some rs /\ map r_extras rs = [[#"f"; #"g"]; [#"h"]].
Proof. eexists. split; vm_compute; reflexivity. Qed.

(** ** C49: packages that are never instrumented *)
Definition under (m pkg : bytes) : Prop := pkg = m \/ exists r, pkg = m ++ #"/" ++ r.
Theorem C49_packages :
  forall pkg,
    snd (check_instrument pkg) = true <->
    ~ under #"runtime" pkg /\ ~ under #"internal" pkg /\ ~ under #"vendor" pkg /\
    ~ In pkg [#"unsafe"; #"syscall"; #"reflect"; #"sync"; #"sync/atomic"; #"testing"] /\
    (under #"github.com/xhd2015/xgo/runtime" pkg -> under #"github.com/xhd2015/xgo/runtime/test" pkg).
Proof.
  assert (W : forall pkg m, match within pkg m with
                        | None => ~ under m pkg
                        | Some [] => pkg = m \/ pkg = m ++ #"/"
                        | Some r => pkg = m ++ #"/" ++ r end).
  { intros pkg m. unfold within. destruct (has_prefix pkg m) eqn:E.
    - apply has_prefix_sound in E as (r & ->). rewrite skipn_app, skipn_all, Nat.sub_diag. cbn [app skipn].
      destruct r as [|c r]; [left; now rewrite app_nil_r|]. destruct (eqc c "/"%char) eqn:C.
      + apply eqc_eq in C. subst c. destruct r; auto.
      + intros [U|(r' & U)]; [rewrite <- (app_nil_r m) in U at 2; apply app_inv_head in U; discriminate|].
        apply app_inv_head in U. injection U as U _. apply eqc_neq in C. now apply C.
    - intros [->|(r & ->)]; [rewrite <- (app_nil_r m) in E at 1|]; now rewrite has_prefix_app in E. }
  assert (WU : forall pkg m, (match within pkg m with Some _ => true | None => false end) = true <-> under m pkg).
  { intros pkg m. specialize (W pkg m). destruct (within pkg m) as [[|c r]|].
    - split; auto. intros _. destruct W as [->| ->]; [now left|]. right. now exists [].
    - split; auto. intros _. right. now exists (c :: r).
    - split; [discriminate|contradiction]. }
  assert (X : forall pkg, is_xgo_runtime pkg = true <-> under runtime_module pkg /\ ~ under (runtime_module ++ #"/" ++ #"test") pkg).
  { intros pkg. unfold is_xgo_runtime. pose proof (W pkg runtime_module) as A. pose proof (WU pkg runtime_module) as B. destruct (within pkg runtime_module) as [s|].
    - assert (B' : under runtime_module pkg) by now apply B. clear B.
      assert (T : match within s #"test" with Some _ => false | None => true end = true <-> ~ under #"test" s).
      { rewrite <- WU. destruct (within s #"test"); split; intros H; try discriminate; try reflexivity; exfalso; now apply H. }
      rewrite T. split.
      + intros N. split; auto. intros U. apply N. destruct s as [|c r].
        * destruct A as [-> | ->]; destruct U as [U|(r & U)]; revert U; vm_compute; discriminate.
        * rewrite A in U. destruct U as [U|(r' & U)]; rewrite <- ?app_assoc in U; apply app_inv_head in U; cbn [app] in U.
          -- apply (f_equal (@tl _)) in U. cbn [tl] in U. left. exact U.
          -- apply (f_equal (@tl _)) in U. cbn [tl] in U. right. exists r'. exact U.
      + intros [_ N] U. apply N. destruct s as [|c r]; [destruct U as [U|(r & U)]; discriminate|].
        rewrite A. destruct U as [U|(r' & U)]; rewrite U; [left; reflexivity|right; exists r'; now rewrite <- !app_assoc].
    - split; [discriminate|]. intros [U _]. now apply B in U. }
  intros pkg. unfold check_instrument. pose proof (WU pkg #"runtime") as R. pose proof (WU pkg #"internal") as I. pose proof (WU pkg #"vendor") as V.
  destruct (within pkg #"runtime"); [cbn [snd]; split; [discriminate|intros (N & _); exfalso; apply N; now apply R]|].
  destruct (within pkg #"internal"); [cbn [snd]; split; [discriminate|intros (_ & N & _); exfalso; apply N; now apply I]|].
  destruct (within pkg #"vendor"); [cbn [snd]; split; [discriminate|intros (_ & _ & N & _); exfalso; apply N; now apply V]|].
  assert (nr : ~ under #"runtime" pkg) by (rewrite <- R; discriminate). assert (ni : ~ under #"internal" pkg) by (rewrite <- I; discriminate). assert (nv : ~ under #"vendor" pkg) by (rewrite <- V; discriminate).
  specialize (X pkg). change (runtime_module ++ #"/" ++ #"test") with #"github.com/xhd2015/xgo/runtime/test" in X. change runtime_module with #"github.com/xhd2015/xgo/runtime" in X.
  assert (E : existsb (eqs pkg) never_instrument = true <-> pkg = #"runtime" \/ In pkg [#"unsafe"; #"syscall"; #"reflect"; #"sync"; #"sync/atomic"; #"testing"]).
  { rewrite existsb_exists. split.
    - intros (x & J & Q). apply eqs_eq in Q. subst x. unfold never_instrument in J. cbn [In] in *. intuition auto.
    - intros J. exists pkg. split; [|apply eqs_refl]. unfold never_instrument. cbn [In] in *. intuition auto. }
  assert (D : under #"github.com/xhd2015/xgo/runtime/test" pkg \/ ~ under #"github.com/xhd2015/xgo/runtime/test" pkg).
  { rewrite <- WU. destruct (match within pkg #"github.com/xhd2015/xgo/runtime/test" with Some _ => true | None => false end); [now left|right; discriminate]. }
  destruct (is_xgo_runtime pkg).
  - cbn [snd]. split; [discriminate|]. intros (_ & _ & _ & _ & H). destruct (proj1 X eq_refl) as [A B]. exfalso. auto.
  - destruct (existsb (eqs pkg) never_instrument); cbn [snd].
    + split; [discriminate|]. intros (N & _ & _ & N' & _). exfalso. destruct (proj1 E eq_refl) as [-> |J]; [apply N; now left|now apply N'].
    + split; auto. intros _. repeat split; auto.
      * intros J. assert (false = true) by (apply E; now right). discriminate.
      * intros U. destruct D as [D|D]; auto. assert (false = true) by (apply X; auto). discriminate.
Qed.
Print Assumptions C49_packages.
Example C49_example :
  map (fun p => snd (check_instrument p)) [#"runtime"; #"runtime/debug"; #"internal/poll"; #"vendor/x"; #"testing"; #"github.com/xhd2015/xgo/runtime/mock"; #"github.com/xhd2015/xgo/runtime/test/x"; #"runtimex"; #"net/http"; #"a/internal/b"]
  = [false; false; false; false; false; false; true; true; true; true].
Proof. vm_compute. reflexivity. Qed.

(** ** C50: the sum that decides whether a package is compiled again *)
(** Some changes are always seen: turning the traps of variables on or off, and naming one
    more function or interface. *)
Definition add_func (f : extra_file) (a b : list bytes) (n : bytes) : extra_file * extra_file :=
  ({| x_name := x_name f; x_funcs := a ++ b; x_intfs := x_intfs f |}, {| x_name := x_name f; x_funcs := a ++ n :: b; x_intfs := x_intfs f |}).
Definition add_intf (f : extra_file) (a b : list bytes) (n : bytes) : extra_file * extra_file :=
  ({| x_name := x_name f; x_funcs := x_funcs f; x_intfs := a ++ b |}, {| x_name := x_name f; x_funcs := x_funcs f; x_intfs := a ++ n :: b |}).
Theorem C50_additions_seen_partial :
  (forall fs gs, sum_text fs true <> sum_text gs false) /\
  (forall fs gs f a b n v, n <> [] -> sum_text (fs ++ fst (add_func f a b n) :: gs) v <> sum_text (fs ++ snd (add_func f a b n) :: gs) v) /\
  (forall fs gs f a b n v, n <> [] -> sum_text (fs ++ fst (add_intf f a b n) :: gs) v <> sum_text (fs ++ snd (add_intf f a b n) :: gs) v) /\
  (forall fs gs f v, x_name f <> [] -> sum_text (fs ++ gs) v <> sum_text (fs ++ f :: gs) v).
Proof.
  repeat split.
  - intros fs gs H. unfold sum_text in H. apply (f_equal (@rev _)) in H. rewrite !rev_app_distr in H. cbn [rev app lit list_ascii_of_string] in H. discriminate.
  - intros fs gs f a b n v N H. apply (f_equal (@length _)) in H. unfold sum_text in H. rewrite !flat_map_app in H. cbn [flat_map] in H.
    repeat rewrite app_length in H. cbn in H. rewrite !concat_app in H. cbn [concat] in H. repeat rewrite app_length in H. destruct n; [congruence|]. simpl in H. unfold bytes in *. lia.
  - intros fs gs f a b n v N H. apply (f_equal (@length _)) in H. unfold sum_text in H. rewrite !flat_map_app in H. cbn [flat_map] in H.
    repeat rewrite app_length in H. cbn in H. rewrite !concat_app in H. cbn [concat] in H. repeat rewrite app_length in H. destruct n; [congruence|]. simpl in H. unfold bytes in *. lia.
  - intros fs gs f v N H. apply (f_equal (@length _)) in H. unfold sum_text in H. rewrite !flat_map_app in H. cbn [flat_map] in H.
    repeat rewrite app_length in H. destruct (x_name f); [congruence|]. simpl in H. unfold bytes in *. lia.
Qed.
Print Assumptions C50_additions_seen_partial.
(** But not all: mocking Do and It, and then DoIt instead, gives the same sum; so does a
    function and an interface of the same name. *)
Theorem C50_changes_unseen_refuted :
  ~ (forall fs gs v, sum_text fs v = sum_text gs v -> fs = gs) /\
  (exists n fs gs v, fs <> gs /\ x_funcs fs = [n] /\ x_intfs fs = [] /\ x_funcs gs = [] /\ x_intfs gs = [n] /\ sum_text [fs] v = sum_text [gs] v).
Proof.
  split.
  - intros H. specialize (H [{| x_name := #"a.go"; x_funcs := [#"Do"; #"It"]; x_intfs := [] |}] [{| x_name := #"a.go"; x_funcs := [#"DoIt"]; x_intfs := [] |}] false eq_refl). discriminate.
  - exists #"Reader", {| x_name := #"a.go"; x_funcs := [#"Reader"]; x_intfs := [] |}, {| x_name := #"a.go"; x_funcs := []; x_intfs := [#"Reader"] |}, false.
    repeat split; discriminate.
Qed.
Print Assumptions C50_changes_unseen_refuted.

(** ** C51: the notes for the coverage tool *)
(** An encoded value: one line, not empty, no space at its ends. *)
Definition clean (s : bytes) : Prop :=
  no_newline s /\ (exists c r, s = c :: r /\ is_space c = false) /\ (exists c r, s = r ++ [c] /\ is_space c = false).
Lemma drop_keep c r : is_space c = false -> drop_space (c :: r) = c :: r. Proof. cbn. now intros ->. Qed.
Lemma trim_clean s : clean s -> trim (" "%char :: s) = s.
Proof.
  intros (_ & (c & r & E & C) & (d & u & F & D)). unfold trim. cbn [drop_space is_space]. change (is_space " ") with true. cbv iota.
  rewrite E, drop_keep by auto. rewrite <- E, F, rev_app_distr. cbn [rev app]. rewrite drop_keep by auto.
  change (d :: rev u) with ([d] ++ rev u). rewrite rev_app_distr, rev_involutive. reflexivity.
Qed.
Lemma lines_rev_step w : no_newline w -> forall r cur m, lines_rev (rev w ++ nlc :: r) cur (S m) = (w ++ cur) :: lines_rev r [] m.
Proof.
  intros N r cur m. revert cur. induction w as [|c w IH] using rev_ind; intros cur.
  - cbn [rev app lines_rev]. now rewrite eqc_refl.
  - rewrite rev_app_distr. cbn [rev app lines_rev].
    assert (C : eqc c nlc = false) by (apply eqc_neq; intros ->; apply N; apply in_or_app; right; now left). rewrite C.
    rewrite IH; [now rewrite <- app_assoc|]. intros I. apply N. apply in_or_app. now left.
Qed.
Lemma lines_rev_0 r cur : lines_rev r cur 0 = []. Proof. destruct r; reflexivity. Qed.
Lemma cut_note k x : clean x -> ~ In ":"%char k -> cut_prefix (#"// __xgo_" ++ k ++ #": " ++ x) = Some (#"// __xgo_" ++ k ++ #":", x).
Proof.
  intros C K. unfold cut_prefix. rewrite has_prefix_app. change 9 with (length #"// __xgo_"). rewrite skipn_app, skipn_all, Nat.sub_diag. cbn [app skipn].
  change (#": " ++ x) with (":"%char :: " "%char :: x). rewrite cut_first_some by auto. now rewrite trim_clean.
Qed.
Lemma clean_line k x : clean x -> no_newline k -> no_newline (#"// __xgo_" ++ k ++ #": " ++ x).
Proof.
  intros (N & _) K. apply nonl_iff. apply nonl_iff in N. apply nonl_iff in K. rewrite !nonl_app, N, K. reflexivity.
Qed.
Theorem C51_notes_round_trip :
  forall q uq j uj edits file original content,
    (forall s, uq (q s) = s) -> uj (j edits) = edits ->
    clean (q file) -> clean (q original) -> clean (j edits) ->
    file <> [] -> original <> [] -> edits <> [] ->
    parse_notes uq uj (add_notes q j edits file original content) = Some (file, edits, original).
Proof.
  intros q uq j uj edits file original content UQ UJ CF CO CE NF NO NE.
  set (l1 := #"// __xgo_" ++ #"file" ++ #": " ++ q file). set (l2 := #"// __xgo_" ++ #"edits" ++ #": " ++ j edits). set (l3 := #"// __xgo_" ++ #"original" ++ #": " ++ q original).
  assert (E : exists a, add_notes q j edits file original content = a ++ [nlc] ++ l1 ++ [nlc] ++ l2 ++ [nlc] ++ l3).
  { unfold add_notes. destruct (has_suffix content [nlc]) eqn:S.
    - apply has_suffix_iff in S as (a & ->). exists a. rewrite <- app_assoc. reflexivity.
    - exists content. reflexivity. }
  destruct E as (a & E).
  assert (K1 : no_newline l1) by (apply clean_line; [auto|apply nonl_iff; reflexivity]). assert (K2 : no_newline l2) by (apply clean_line; [auto|apply nonl_iff; reflexivity]).
  assert (K3 : no_newline l3) by (apply clean_line; [auto|apply nonl_iff; reflexivity]).
  assert (L : lines_from_end (add_notes q j edits file original content) 3 = [l1; l2; l3]).
  { rewrite E. unfold lines_from_end.
    assert (R : rev (a ++ [nlc] ++ l1 ++ [nlc] ++ l2 ++ [nlc] ++ l3) = rev l3 ++ nlc :: rev l2 ++ nlc :: rev l1 ++ nlc :: rev a).
    { rewrite !rev_app_distr. cbn [rev app]. rewrite <- !app_assoc. reflexivity. }
    rewrite R. destruct (rev l3 ++ nlc :: rev l2 ++ nlc :: rev l1 ++ nlc :: rev a) as [|c r] eqn:Q; [destruct (rev l3); discriminate|].
    assert (C : eqc c nlc = false).
    { apply eqc_neq. intros ->. destruct CO as (_ & _ & (d & u & F & D)). subst l3. rewrite F in Q, K3.
      replace (#"// __xgo_" ++ #"original" ++ #": " ++ u ++ [d]) with ((#"// __xgo_" ++ #"original" ++ #": " ++ u) ++ [d]) in Q by (rewrite <- !app_assoc; reflexivity).
      rewrite rev_app_distr in Q. cbn [rev app] in Q. assert (d = nlc) by congruence. subst d. discriminate D. }
    rewrite C, <- Q. rewrite lines_rev_step by auto. rewrite lines_rev_step by auto. rewrite lines_rev_step by auto. rewrite lines_rev_0, !app_nil_r. reflexivity. }
  unfold parse_notes. rewrite L. cbn [length Nat.ltb Nat.leb].
  assert (X1 : cut_prefix l1 = Some (#"// __xgo_file:", q file)) by (apply (cut_note #"file"); [auto|intros I; cbn in I; repeat (destruct I as [I|I]; [discriminate|]); destruct I]).
  assert (X2 : cut_prefix l2 = Some (#"// __xgo_edits:", j edits)) by (apply (cut_note #"edits"); [auto|intros I; cbn in I; repeat (destruct I as [I|I]; [discriminate|]); destruct I]).
  assert (X3 : cut_prefix l3 = Some (#"// __xgo_original:", q original)) by (apply (cut_note #"original"); [auto|intros I; cbn in I; repeat (destruct I as [I|I]; [discriminate|]); destruct I]).
  clearbody l1 l2 l3. cbn [collect]. rewrite X1, X2, X3.
  change (eqs #"// __xgo_file:" #"// __xgo_file:") with true. change (eqs #"// __xgo_edits:" #"// __xgo_file:") with false. change (eqs #"// __xgo_edits:" #"// __xgo_edits:") with true.
  change (eqs #"// __xgo_original:" #"// __xgo_file:") with false. change (eqs #"// __xgo_original:" #"// __xgo_edits:") with false. change (eqs #"// __xgo_original:" #"// __xgo_original:") with true. cbv iota.
  destruct CF as (_ & (c1 & r1 & F1 & _) & _), CE as (_ & (c2 & r2 & F2 & _) & _), CO as (_ & (c3 & r3 & F3 & _) & _).
  rewrite F1, F2, F3. rewrite <- F1, <- F2, <- F3, !UQ, UJ.
  destruct file; [congruence|]. destruct edits; [congruence|]. destruct original; [congruence|]. reflexivity.
Qed.
Print Assumptions C51_notes_round_trip.
(** strconv.Quote as modelled is such an encoding, with its inverse. *)
Fixpoint unescape (s : bytes) : bytes :=
  match s with
  | [] => []
  | c :: r =>
      if eqc c (ascii_of_nat 34) then []
      else if eqc c (ascii_of_nat 92) then match r with [] => [] | d :: r' => (if eqc d "n"%char then nlc else d) :: unescape r' end
      else c :: unescape r
  end.
Definition unquote (s : bytes) : bytes := match s with [] => [] | _ :: r => unescape r end.
Lemma unquote_quote s : unquote (quote s) = s.
Proof.
  unfold quote, unquote. cbn [app]. induction s as [|c s IH]; [reflexivity|]. cbn [flat_map]. rewrite <- app_assoc.
  destruct (eqc c (ascii_of_nat 34)) eqn:E1; [apply eqc_eq in E1; subst; cbn [orb app unescape]; change (eqc (ascii_of_nat 92) (ascii_of_nat 34)) with false; change (eqc (ascii_of_nat 92) (ascii_of_nat 92)) with true; cbv iota; now rewrite IH|].
  destruct (eqc c (ascii_of_nat 92)) eqn:E2; [apply eqc_eq in E2; subst; cbn [orb app unescape]; change (eqc (ascii_of_nat 92) (ascii_of_nat 34)) with false; change (eqc (ascii_of_nat 92) (ascii_of_nat 92)) with true; cbv iota; now rewrite IH|].
  destruct (eqc c (ascii_of_nat 10)) eqn:E3; cbn [orb app unescape].
  - apply eqc_eq in E3. subst. change (eqc (ascii_of_nat 92) (ascii_of_nat 34)) with false. change (eqc (ascii_of_nat 92) (ascii_of_nat 92)) with true. cbv iota. rewrite IH. reflexivity.
  - rewrite E1, E2, IH. reflexivity.
Qed.
Lemma clean_quote s : clean (quote s).
Proof.
  split; [apply nonl_iff, nonl_quote|]. unfold quote. split.
  - eexists. eexists. split; [reflexivity|reflexivity].
  - eexists. eexists. rewrite app_assoc. split; [reflexivity|reflexivity].
Qed.
Example C51_example :
  let q := quote in let uq := unquote in
  let j := fun es : list edit => #"[" ++ itoa (length es) ++ #"]" in
  let uj := fun s => if eqs s #"[1]" then [Edit 3 3 #"x"] else [] in
  parse_notes uq uj (add_notes q j [Edit 3 3 #"x"] #"/a b.go" (#"package p" ++ NL ++ #"// __xgo_file: no" ++ NL) #"package p;x") = Some (#"/a b.go", [Edit 3 3 #"x"], #"package p" ++ NL ++ #"// __xgo_file: no" ++ NL).
Proof.
  apply C51_notes_round_trip; try discriminate; try apply clean_quote; [exact unquote_quote|reflexivity|].
  split; [apply nonl_iff; reflexivity|]. split; [exists "["%char, (itoa 1 ++ #"]"); split; reflexivity|exists "]"%char, (#"[" ++ itoa 1); split; reflexivity].
Qed.

(** ** C52: generated names *)
(** The names declared in the package by the tool: per file, or numbered in a file. *)
Inductive kind := KType | KRegister | KTrap | KTrapVar | KTrapVarPtr | KPkg | KFile | KFileVar | KInit | KFunc | KVar | KIntf.
Definition numbered (k : kind) : bool := match k with KFunc | KVar | KIntf => true | _ => false end.
Definition stem (k : kind) : bytes :=
  match k with
  | KType => #"__xgo_func_info" | KRegister => #"__xgo_register" | KTrap => #"__xgo_trap" | KTrapVar => #"__xgo_trap_var" | KTrapVarPtr => #"__xgo_trap_varptr"
  | KPkg => #"__xgo_pkg" | KFile => #"__xgo_file" | KFileVar => #"__xgo_file_var" | KInit => #"__xgo_init"
  | KFunc => #"__xgo_func_info" | KVar => #"__xgo_var_info" | KIntf => #"__xgo_intf_info"
  end.
Definition gname (k : kind) (file i : nat) : bytes := stem k ++ #"_" ++ itoa file ++ (if numbered k then #"_" ++ itoa i else []).
Lemma itoa_no_us n : ~ In "_"%char (itoa n).
Proof. intros I. destruct (itoa_spec n) as (_ & F & _). rewrite Forall_forall in F. specialize (F _ I). discriminate. Qed.
Lemma itoa_last n : exists u c, itoa n = u ++ [c] /\ is_digit c = true.
Proof.
  destruct (itoa_spec n) as (N & F & _). destruct (exists_last N) as (u & c & E). exists u, c. split; auto. rewrite E in F. apply Forall_app in F as [_ F]. now inversion F.
Qed.
Lemma stem_last k : exists u c, stem k = u ++ [c] /\ is_digit c = false.
Proof. exists (removelast (stem k)), (last (stem k) "_"%char). destruct k; split; reflexivity. Qed.
Lemma snoc_inj (u v : bytes) c d : u ++ [c] = v ++ [d] -> u = v /\ c = d. Proof. apply app_inj_tail. Qed.
(** Two of them are the same only if kind, file and number are. *)
Theorem C52_generated_names_distinct :
  forall k k' file file' i i', gname k file i = gname k' file' i' -> k = k' /\ file = file' /\ (numbered k = true -> i = i').
Proof.
  intros k k' file file' i i' H.
  assert (C : forall a n, cut_last "_"%char (a ++ #"_" ++ itoa n) = Some (a, itoa n)) by (intros; apply cut_last_some; apply itoa_no_us).
  assert (S : forall a n b m, a ++ #"_" ++ itoa n = b ++ #"_" ++ itoa m -> a = b /\ n = m).
  { intros a n b m E. apply (f_equal (cut_last "_"%char)) in E. rewrite !C in E. assert (X : a = b) by congruence. assert (Y : itoa n = itoa m) by congruence. split; auto. now apply itoa_inj. }
  assert (ND : forall k x n, stem k <> x ++ #"_" ++ itoa n).
  { intros k0 x n E. destruct (stem_last k0) as (u & c & E1 & D1), (itoa_last n) as (v & d & E2 & D2). rewrite E1, E2 in E. rewrite !app_assoc in E. apply snoc_inj in E as [_ ->]. congruence. }
  unfold gname in H. destruct (numbered k) eqn:N, (numbered k') eqn:N'.
  - rewrite (app_assoc #"_" (itoa file)), (app_assoc #"_" (itoa file')) in H. rewrite (app_assoc (stem k)), (app_assoc (stem k')) in H.
    apply S in H as [H ->]. apply S in H as [H ->]. repeat split; auto. destruct k, k'; try discriminate N; try discriminate N'; try reflexivity; exfalso; revert H; vm_compute; discriminate.
  - rewrite app_nil_r in H. rewrite (app_assoc #"_" (itoa file)), (app_assoc (stem k)) in H. apply S in H as [H _]. symmetry in H. now apply ND in H.
  - rewrite app_nil_r in H. rewrite (app_assoc #"_" (itoa file')), (app_assoc (stem k')) in H. apply S in H as [H _]. now apply ND in H.
  - rewrite !app_nil_r in H. apply S in H as [H ->]. repeat split; [|discriminate]. destruct k, k'; try discriminate N; try discriminate N'; try reflexivity; exfalso; revert H; vm_compute; discriminate.
Qed.
Print Assumptions C52_generated_names_distinct.
(** The info variables used by a file are these names, numbered from 0. *)
Lemma trap_infos pkg fi o ds : forall r r', trap_funcs pkg fi o ds r = Some r' ->
  map fi_var (r_infos r) = map (gname KFunc fi) (seq 0 (length (r_infos r))) -> map fi_var (r_infos r') = map (gname KFunc fi) (seq 0 (length (r_infos r'))).
Proof.
  induction ds as [|d ds IH]; intros r r' H E; cbn [trap_funcs] in H.
  - injection H as <-. exact E.
  - destruct (d_body d) as [[lb line]|]; [|eapply IH; eauto]. destruct (negb (eligible pkg d)); [eapply IH; eauto|].
    destruct (identity d) as [[id t]|]; [|discriminate]. destruct (negb (selected _ _ _ _)); [eapply IH; eauto|].
    destruct (negb (o_main o) && negb (o_force o)).
    + destruct (o_mode o); [|eapply IH; eauto|];
        (destruct (_ <? max_per_file); [|eapply IH; eauto]; destruct (r_quota r) as [[|k]|]; eapply IH; eauto).
    + destruct (trap_one fi (length (r_infos r)) d lb line id t) as [[ops info]|] eqn:T; [|discriminate]. eapply IH; [exact H|]. cbn [r_infos].
      rewrite map_app, app_length, seq_app, map_app, E. f_equal. cbn [length seq map plus].
      assert (fi_var info = gname KFunc fi (length (r_infos r))) as ->; [|reflexivity].
      unfold trap_one in T. destruct (process_fields recv_prefix None 0 _). destruct (1 <? _); [discriminate|].
      destruct (process_fields param_prefix None 0 _). destruct (process_fields result_prefix _ 0 _).
      match type of T with Some (?a, ?b) = Some _ => assert (Qi : info = b) by congruence end. rewrite Qi. reflexivity.
Qed.
Theorem C52_info_variables :
  (forall pkg fi o ds r', trap_funcs pkg fi o ds {| r_ops := []; r_infos := []; r_extras := []; r_quota := None |} = Some r' ->
     map fi_var (r_infos r') = map (gname KFunc fi) (seq 0 (length (r_infos r')))) /\
  (forall test fi pe vs, let regs := snd (rewrite_vars test fi 0 pe vs) in map (fun v => fst (fst v)) regs = map (gname KVar fi) (seq 0 (length regs))) /\
  (forall fi l, map (fun v => fst (fst v)) (intf_infos fi 0 l) = map (gname KIntf fi) (seq 0 (length l))).
Proof.
  split; [|split].
  - intros pkg fi o ds r' H. eapply trap_infos; eauto.
  - intros test fi pe vs. cbv zeta. generalize 0. induction vs as [|v vs IH]; intros i; [reflexivity|]. cbn [rewrite_vars]. destruct (v_type v); [apply IH|].
    specialize (IH (S i)). destruct (rewrite_vars test fi (S i) pe vs) as [ops regs]. cbn [snd map length seq fst] in *. now rewrite IH.
  - intros fi l. generalize 0. induction l as [|[n line] l IH]; intros i; [reflexivity|]. cbn [intf_infos map length seq fst]. now rewrite IH.
Qed.
Print Assumptions C52_info_variables.
(** The accessors of variables: in a file that is not a test file, different variables have
    different accessors. *)
Definition getter (test : bool) (name : bytes) (ptr : bool) : bytes := var_prefix test name ++ name ++ (if ptr then #"_xgo_get_addr" else #"_xgo_get").
Theorem C52_accessors_partial :
  forall test a b p p', (test = true -> ~ (exists r, a = #"T_" ++ r) /\ ~ (exists r, b = #"T_" ++ r)) -> getter test a p = getter test b p' -> a = b /\ p = p'.
Proof.
  intros test a b p p' T H. unfold getter in H.
  assert (SS : forall (u v : bytes) (q q' : bool), u ++ (if q then #"_xgo_get_addr" else #"_xgo_get") = v ++ (if q' then #"_xgo_get_addr" else #"_xgo_get") -> u = v /\ q = q').
  { intros u v q q' E. destruct q, q'; [split; auto; now apply app_inv_tail in E| | |split; auto; now apply app_inv_tail in E];
      apply (f_equal (@rev _)) in E; rewrite !rev_app_distr in E; cbn in E; discriminate. }
  rewrite !app_assoc in H. apply SS in H as [H ->]. split; auto. unfold var_prefix in H. destruct test; cbn [andb] in H; [|exact H].
  destruct (T eq_refl) as [Ta Tb].
  destruct (has_prefix a #"Test"), (has_prefix b #"Test"); cbn [app] in H; auto.
  - now apply app_inv_head in H.
  - exfalso. apply Tb. exists a. auto.
  - exfalso. apply Ta. exists b. auto.
Qed.
Print Assumptions C52_accessors_partial.
Theorem C52_accessors_refuted :
  ~ (forall test a b p, getter test a p = getter test b p -> a = b).
Proof. intros H. specialize (H true #"TestX" #"T_TestX" false eq_refl). discriminate. Qed.
Print Assumptions C52_accessors_refuted.
(** [getter] is what is generated after the declaration. *)
Theorem C52_accessors_declared :
  forall test fi i pe v, exists code, In (OInsert (v_end v) code) (rewrite_var test fi i pe v) /\
    sub (#"func " ++ getter test (v_name v) false ++ #"() " ++ v_type v ++ #" {") code /\
    sub (#"func " ++ getter test (v_name v) true ++ #"() *" ++ v_type v ++ #" {") code.
Proof.
  intros test fi i pe v. eexists. split; [unfold rewrite_var; apply in_or_app; right; right; left; reflexivity|]. unfold gen_code, getter.
  generalize (var_prefix test (v_name v)); intros p. generalize (v_name v), (v_type v); intros x t. generalize (info_var #"__xgo_var_info" fi i); intros info. generalize (itoa fi); intros n. split.
  - exists [], (#"__mock_res := " ++ x ++ #";__xgo_trap_var_" ++ n ++ #"(" ++ info ++ #",&" ++ x ++ #",&__mock_res);return __mock_res;};func " ++ p ++ x ++ #"_xgo_get_addr() *" ++ t ++ #" {__mock_res := &" ++ x ++ #";__xgo_trap_varptr_" ++ n ++ #"(" ++ info ++ #",&" ++ x ++ #",&__mock_res);return __mock_res;}").
    rewrite <- !app_assoc. reflexivity.
  - exists (#"func " ++ p ++ x ++ #"_xgo_get() " ++ t ++ #" {__mock_res := " ++ x ++ #";__xgo_trap_var_" ++ n ++ #"(" ++ info ++ #",&" ++ x ++ #",&__mock_res);return __mock_res;};"), (#"__mock_res := &" ++ x ++ #";__xgo_trap_varptr_" ++ n ++ #"(" ++ info ++ #",&" ++ x ++ #",&__mock_res);return __mock_res;}").
    rewrite <- !app_assoc. reflexivity.
Qed.
Print Assumptions C52_accessors_declared.
