(** * C47-C53: instrumentation of functions and variables: names, selection, packages,
    cache sum, coverage notes, generated names.  Model: M_Instrument. *)
From Coq Require Import Ascii String List Arith ZArith Bool Lia.
From Verif Require Import M_Str M_Edit M_Version M_Coverage M_Instrument T_Edit T_Coverage T_Instrument.
Import ListNotations.
Open Scope nat_scope.

(** ** C47: every receiver, parameter and result has a usable name *)
(** The slots of a field list, in order: the user's name, or none if it is absent or blank. *)
Definition user_name (n : ident) : option bytes := if eqs (i_text n) #"_" || eqs (i_text n) [] then None else Some (i_text n).
Definition slots (fs : list field) : list (option bytes) :=
  flat_map (fun f => match f_names f with [] => [None] | ns => map user_name ns end) fs.
(** The i-th slot gets its own name or prefix+i. *)
Fixpoint named (prefix : bytes) (i : nat) (l : list (option bytes)) : list bytes :=
  match l with [] => [] | o :: r => (match o with Some n => n | None => prefix ++ itoa i end) :: named prefix (S i) r end.
(** The edits asked for: a blank name is replaced, a missing name is put before its type. *)
Fixpoint asked_names (prefix : bytes) (i : nat) (ns : list ident) : list op :=
  match ns with
  | [] => []
  | n :: r => (match user_name n with Some _ => [] | None => [OReplace (i_start n) (Some (i_end n)) (prefix ++ itoa i)] end) ++ asked_names prefix (S i) r
  end.
Fixpoint asked_fields (prefix : bytes) (i : nat) (fs : list field) : list op :=
  match fs with
  | [] => []
  | f :: r =>
      match f_names f with
      | [] => OInsert (f_type f) (prefix ++ itoa i ++ #" ") :: asked_fields prefix (S i) r
      | ns => asked_names prefix i ns ++ asked_fields prefix (i + length ns) r
      end
  end.

Lemma blank_user n : blank (i_text n) = match user_name n with Some _ => false | None => true end.
Proof.
  unfold blank, user_name. destruct (i_text n) as [|c t]; [reflexivity|]. change (eqs (c :: t) []) with false. rewrite orb_false_r.
  now destruct (eqs (c :: t) #"_").
Qed.
Lemma user_some n x : user_name n = Some x -> i_text n = x.
Proof. unfold user_name. destruct (_ || _); congruence. Qed.
Lemma named_app p i a b : named p i (a ++ b) = named p i a ++ named p (i + length a) b.
Proof. revert i. induction a as [|x a IH]; intros i; simpl; [now rewrite Nat.add_0_r|]. rewrite IH. do 2 f_equal. f_equal. lia. Qed.
Lemma name_fields_spec p ns : forall i, name_fields p i ns = (asked_names p i ns, named p i (map user_name ns)).
Proof.
  induction ns as [|n ns IH]; intros i; auto. cbn [name_fields asked_names map named]. rewrite IH, blank_user.
  destruct (user_name n) eqn:E; auto. apply user_some in E. now rewrite E.
Qed.
(** [process_fields] without the parentheses. *)
Lemma process_spec p fs : forall i, process_fields p None i fs = (asked_fields p i fs, named p i (slots fs)).
Proof.
  induction fs as [|f fs IH]; intros i; auto. cbn [process_fields asked_fields slots flat_map]. destruct (f_names f) as [|n ns] eqn:E.
  - rewrite IH. cbn [app named]. now rewrite <- app_assoc.
  - rewrite name_fields_spec, IH, named_app, map_length. reflexivity.
Qed.
Lemma itoa_spec n : itoa n <> [] /\ Forall (fun c => is_digit c = true) (itoa n) /\ digits_value (itoa n) = Z.of_nat n.
Proof.
  unfold itoa, format_int. replace (Z.of_nat n <? 0)%Z with false by (symmetry; apply Z.ltb_ge; lia). apply fmt_log. lia.
Qed.
Lemma itoa_inj a b : itoa a = itoa b -> a = b.
Proof. intros H. destruct (itoa_spec a) as (_ & _ & A), (itoa_spec b) as (_ & _ & B). rewrite H in A. lia. Qed.

(** Names given by the user in one function, and their being usable: Go forbids
    repetitions; none starts with the prefix reserved by the tool. *)
Definition user_names (d : fdecl) : list bytes :=
  flat_map (fun o => match o with Some n => [n] | None => [] end) (slots (map fst (d_recv d) ++ d_params d ++ d_results d)).
Definition reserved (n : bytes) : Prop := exists r, n = #"__xgo_auto_" ++ r.

Definition given (p : bytes) (i k : nat) : bytes -> Prop := fun n => exists j, i <= j < i + k /\ n = p ++ itoa j.
Lemma named_in p l : forall i n, In n (named p i l) -> In (Some n) l \/ given p i (length l) n.
Proof.
  induction l as [|o l IH]; intros i n; cbn [named]; [intros []|]. intros [<-|I].
  - destruct o; [left; now left|right; exists i; cbn [length]; split; [lia|auto]].
  - destruct (IH _ _ I) as [X|(j & L & E)]; [left; now right|right; exists j; cbn [length]; split; [lia|auto]].
Qed.
Definition somes (l : list (option bytes)) : list bytes := flat_map (fun o => match o with Some n => [n] | None => [] end) l.
Lemma somes_in l n : In n (somes l) <-> In (Some n) l.
Proof.
  unfold somes. rewrite in_flat_map. split.
  - intros (o & I & J). destruct o as [m|]; [destruct J as [->|[]]; auto|destruct J].
  - intros I. exists (Some n). split; auto. now left.
Qed.
Lemma named_nodup p l : (forall n r, In n (somes l) -> n <> p ++ r) -> NoDup (somes l) -> forall i, NoDup (named p i l).
Proof.
  induction l as [|o l IH]; intros R N i; cbn [named]; [constructor|].
  assert (R' : forall n r, In n (somes l) -> n <> p ++ r).
  { intros n r I. apply R. apply somes_in. right. now apply somes_in. }
  assert (N' : NoDup (somes l)). { destruct o; [now inversion N|exact N]. }
  constructor; auto. intros I. apply named_in in I. destruct o as [n|].
  - inversion N as [|? ? NI _]; subst. destruct I as [I|(j & L & E)]; [apply NI; now apply somes_in|].
    apply (R n (itoa j)); [now left|exact E].
  - destruct I as [I|(j & L & E)].
    + apply (R (p ++ itoa i) (itoa i)); auto. apply somes_in. now right.
    + apply app_inv_head in E. apply itoa_inj in E. lia.
Qed.
Lemma nodup_app {A} (a b : list A) : NoDup a -> NoDup b -> (forall x, In x a -> ~ In x b) -> NoDup (a ++ b).
Proof.
  induction 1 as [|x a NI N IH]; intros B D; auto. cbn [app]. constructor.
  - intros I. apply in_app_or in I as [I|I]; [contradiction|]. apply (D x); auto. now left.
  - apply IH; auto. intros y I. apply D. now right.
Qed.
Lemma nodup_app_inv {A} (a b : list A) : NoDup (a ++ b) -> NoDup a /\ NoDup b /\ (forall x, In x a -> ~ In x b).
Proof.
  induction a as [|x a IH]; cbn [app]; intros N; [repeat split; auto; constructor|]. inversion N as [|? ? NI N']; subst.
  destruct (IH N') as (A1 & A2 & A3). repeat split; auto.
  - constructor; auto. intros I. apply NI. apply in_or_app. now left.
  - intros y [<-|I] J; [apply NI; apply in_or_app; now right|now apply (A3 y)].
Qed.
Lemma slots_some fs n : In (Some n) (slots fs) -> n <> [] /\ n <> #"_".
Proof.
  unfold slots. rewrite in_flat_map. intros (f & _ & I). destruct (f_names f) as [|x xs]; [destruct I as [I|[]]; discriminate|].
  apply in_map_iff in I as (y & E & _). unfold user_name in E. destruct (eqs (i_text y) #"_") eqn:E1; [discriminate|].
  destruct (eqs (i_text y) []) eqn:E2; [discriminate|]. cbn [orb] in E. injection E as <-. split; intros X; rewrite X in *; [rewrite eqs_refl in E2|rewrite eqs_refl in E1]; discriminate.
Qed.

Definition sub (e s : bytes) : Prop := exists a b, s = a ++ e ++ b.
Lemma sub_right e u s : sub e s -> sub e (u ++ s). Proof. intros (a & b & ->). exists (u ++ a), b. now rewrite <- app_assoc. Qed.
Lemma sub_left e u s : sub e s -> sub e (s ++ u). Proof. intros (a & b & ->). exists a, (b ++ u). now rewrite <- !app_assoc. Qed.

(** What is inserted around a single result type written without parentheses. *)
Definition wrap (d : fdecl) (lb : nat) : list op :=
  match d_results d with
  | [f] => match f_names f with
           | [] => if d_results_paren d then [] else [OInsert (d_params_close d + 1) #" ("; OInsert lb #")"]
           | _ => []
           end
  | _ => []
  end.
Lemma process_results d lb line : d_body d = Some (lb, line) ->
  process_fields result_prefix (result_paren d) 0 (d_results d) = (wrap d lb ++ asked_fields result_prefix 0 (d_results d), named result_prefix 0 (slots (d_results d))).
Proof.
  intros B. unfold result_paren, wrap. rewrite B. destruct (d_results d) as [|f [|f2 fs]]; auto; [|apply process_spec].
  destruct (f_names f) as [|n ns] eqn:E.
  - destruct (d_results_paren d); [apply process_spec|]. cbn [process_fields asked_fields slots flat_map]. rewrite E. cbn [app named]. rewrite <- ?app_assoc. reflexivity.
  - rewrite process_spec. reflexivity.
Qed.

Definition receiver_arg (ns : list bytes) : bytes := match ns with [] => #"nil" | n :: _ => #"&" ++ n end.

(** The names of a function instrumented in place: the user's where there is one, a fresh one
    otherwise, in order, none blank, all different; the edits give the fresh names to their
    slots and nothing else is edited but the parentheses and the body's beginning; the call put
    there passes the addresses of exactly these names, in order, and the registered metadata
    lists them. *)
Theorem C47_names :
  forall file_index i d lb line id t ops info,
    d_body d = Some (lb, line) ->
    trap_one file_index i d lb line id t = Some (ops, info) ->
    fi_recv info = named #"__xgo_auto_rcv_" 0 (slots (map fst (d_recv d))) /\
    fi_params info = named #"__xgo_auto_param_" 0 (slots (d_params d)) /\
    fi_results info = named #"__xgo_auto_res_" 0 (slots (d_results d)) /\
    (forall n, In n (fi_recv info ++ fi_params info ++ fi_results info) -> n <> [] /\ n <> #"_") /\
    (NoDup (user_names d) -> (forall n, In n (user_names d) -> ~ reserved n) -> NoDup (fi_recv info ++ fi_params info ++ fi_results info)) /\
    (exists before after,
      ops = asked_fields #"__xgo_auto_rcv_" 0 (map fst (d_recv d)) ++ asked_fields #"__xgo_auto_param_" 0 (d_params d) ++
            wrap d lb ++ asked_fields #"__xgo_auto_res_" 0 (d_results d) ++
            [OInsert (S lb) (before ++ #"(" ++ fi_var info ++ #"," ++ receiver_arg (fi_recv info) ++
               #",[]interface{}{" ++ join #"," (map (app #"&") (fi_params info)) ++ #"},[]interface{}{" ++
               join #"," (map (app #"&") (fi_results info)) ++ #"});" ++ after)]) /\
    (forall file_index stdlib, fi_params info <> [] ->
      exists a b, fst (fst (func_literal file_index stdlib info)) = a ++ #"ArgNames:[]string{" ++ join #"," (map quote (fi_params info)) ++ #"}" ++ b) /\
    (forall file_index stdlib, fi_results info <> [] ->
      exists a b, fst (fst (func_literal file_index stdlib info)) = a ++ #"ResNames:[]string{" ++ join #"," (map quote (fi_results info)) ++ #"}" ++ b).
Proof.
  intros file_index i d lb line id t ops info B. unfold trap_one. rewrite !process_spec, (process_results d lb line B).
  destruct (1 <? _) eqn:L1; [discriminate|]. intros Q.
  assert (LIT : forall (f : finfo) fi std e, In e (func_extra f) -> sub e (fst (fst (func_literal fi std f)))).
  { clear. intros f fi std e I. apply in_split in I as (l1 & l2 & E). unfold func_literal, define_literal, make_literal. cbn [fst]. rewrite E.
    assert (J : exists a b, match l1 ++ e :: l2 with [] => [] | _ :: _ => #"," ++ join #"," (l1 ++ e :: l2) end = a ++ e ++ b).
    { clear. assert (G : exists a b, join #"," (l1 ++ e :: l2) = a ++ e ++ b).
      { induction l1 as [|x l1 (a & b & IH)].
        - destruct l2 as [|y l2]; [exists [], []; cbn; now rewrite app_nil_r|]. exists [], (#"," ++ join #"," (y :: l2)). reflexivity.
        - cbn [app]. exists (x ++ #"," ++ a), b. rewrite <- !app_assoc, <- IH. destruct (l1 ++ e :: l2) eqn:E; [destruct l1; discriminate|]. reflexivity. }
      destruct G as (a & b & ->). exists (#"," ++ a), b. destruct (l1 ++ e :: l2) eqn:E; [destruct l1; discriminate|]. now rewrite <- app_assoc. }
    destruct J as (a & b & ->).
    do 17 apply sub_right. apply sub_left. exists a, b. reflexivity. }
  match type of Q with Some (?a, ?b) = Some _ => assert (Qo : ops = a) by congruence; assert (Qi : info = b) by congruence end. clear Q.
  split; [rewrite Qi; reflexivity|]. split; [rewrite Qi; reflexivity|]. split; [rewrite Qi; reflexivity|].
  split; [|split; [|split; [|split]]].
  - intros n I. rewrite Qi in I. cbn [fi_recv fi_params fi_results] in I.
    assert (G : forall p fs, In n (named p 0 (slots fs)) -> (exists c d r, p = c :: d :: r) -> n <> [] /\ n <> #"_").
    { clear. intros p fs I (c & e & r & ->). apply named_in in I as [I|(j & _ & ->)]; [now apply slots_some in I|]. split; discriminate. }
    apply in_app_or in I as [I|I]; [|apply in_app_or in I as [I|I]]; eapply G; eauto; repeat eexists.
  - intros N R. rewrite Qi. cbn [fi_recv fi_params fi_results]. clear Qi Qo.
    unfold user_names, slots in N, R. rewrite !flat_map_app in N. rewrite !flat_map_app in R. fold (slots (map fst (d_recv d))) (slots (d_params d)) (slots (d_results d)) in N, R.
    fold (somes (slots (map fst (d_recv d)))) (somes (slots (d_params d))) (somes (slots (d_results d))) in N, R.
    apply nodup_app_inv in N as (N1 & N2 & D1). apply nodup_app_inv in N2 as (N2 & N3 & D2).
    set (A1 := slots (map fst (d_recv d))) in *. set (A2 := slots (d_params d)) in *. set (A3 := slots (d_results d)) in *. clearbody A1 A2 A3.
    assert (R' : forall n r, In n (somes A1 ++ somes A2 ++ somes A3) -> n <> #"__xgo_auto_" ++ r).
    { intros n r I E. apply (R n I). now exists r. }
    assert (P1 : recv_prefix = #"__xgo_auto_" ++ #"rcv_") by reflexivity. assert (P2 : param_prefix = #"__xgo_auto_" ++ #"param_") by reflexivity.
    assert (P3 : result_prefix = #"__xgo_auto_" ++ #"res_") by reflexivity.
    assert (X : forall s l, (forall n, In n (somes l) -> In n (somes A1 ++ somes A2 ++ somes A3)) -> forall n r, In n (somes l) -> n <> (#"__xgo_auto_" ++ s) ++ r).
    { intros s l S n r I. rewrite <- app_assoc. apply R'. auto. }
    assert (Y : forall n u, In n (somes A1 ++ somes A2 ++ somes A3) -> given (#"__xgo_auto_" ++ u) 0 (length (A1 ++ A2 ++ A3)) n -> False).
    { intros n u I (j & _ & E). rewrite <- app_assoc in E. now apply (R' n _ I) in E. }
    assert (D : forall u v l m, (forall a b, (#"__xgo_auto_" ++ u) ++ a <> (#"__xgo_auto_" ++ v) ++ b) ->
                (forall n, In n (somes l) -> In n (somes A1 ++ somes A2 ++ somes A3)) -> (forall n, In n (somes m) -> In n (somes A1 ++ somes A2 ++ somes A3)) ->
                (forall n, In n (somes l) -> ~ In n (somes m)) ->
                forall n, In n (named (#"__xgo_auto_" ++ u) 0 l) -> ~ In n (named (#"__xgo_auto_" ++ v) 0 m)).
    { intros u v l m UV SL SM DD n I J. apply named_in in I. apply named_in in J. destruct I as [I|(j & _ & I)], J as [J|(k & _ & J)].
      - apply somes_in in I. apply somes_in in J. now apply (DD n).
      - apply somes_in in I. rewrite <- app_assoc in J. now apply (R' n (v ++ itoa k) (SL n I)).
      - apply somes_in in J. rewrite <- app_assoc in I. now apply (R' n (u ++ itoa j) (SM n J)).
      - subst n. now apply (UV (itoa j) (itoa k)). }
    assert (S1 : forall n, In n (somes A1) -> In n (somes A1 ++ somes A2 ++ somes A3)) by (intros; apply in_or_app; auto).
    assert (S2 : forall n, In n (somes A2) -> In n (somes A1 ++ somes A2 ++ somes A3)) by (intros; apply in_or_app; right; apply in_or_app; auto).
    assert (S3 : forall n, In n (somes A3) -> In n (somes A1 ++ somes A2 ++ somes A3)) by (intros; apply in_or_app; right; apply in_or_app; auto).
    rewrite P1, P2, P3. apply nodup_app; [apply named_nodup; [apply X|]; auto|apply nodup_app; [apply named_nodup; [apply X|]; auto|apply named_nodup; [apply X|]; auto|]|].
    + refine (D #"param_" #"res_" A2 A3 _ S2 S3 D2). intros a b E. discriminate.
    + intros n I J. apply in_app_or in J as [J|J].
      * refine (D #"rcv_" #"param_" A1 A2 _ S1 S2 _ n I J); [intros a b E; discriminate|]. intros m M M'. apply (D1 m M). apply in_or_app. now left.
      * refine (D #"rcv_" #"res_" A1 A3 _ S1 S3 _ n I J); [intros a b E; discriminate|]. intros m M M'. apply (D1 m M). apply in_or_app. now right.
  - assert (RA : recv_addr (fi_recv info) = receiver_arg (fi_recv info)).
    { rewrite Qi. cbn [fi_recv]. destruct (named recv_prefix 0 (slots (map fst (d_recv d)))) as [|n ns] eqn:E; [reflexivity|].
      cbn [recv_addr]. destruct n as [|c n]; [|reflexivity]. exfalso.
      assert (I : In [] (named recv_prefix 0 (slots (map fst (d_recv d))))) by (rewrite E; now left).
      apply named_in in I as [I|(j & _ & I)]; [now apply slots_some in I as [I _]|discriminate]. }
    exists (#"__xgo_post_" ++ itoa line ++ #", __xgo_stop_" ++ itoa line ++ #" := __xgo_trap_" ++ itoa file_index),
      (#"if __xgo_post_" ++ itoa line ++ #"!=nil { defer __xgo_post_" ++ itoa line ++ #"(); };if __xgo_stop_" ++ itoa line ++ #" { return; };").
    rewrite <- RA, Qo, Qi. cbn [fi_recv fi_params fi_results fi_var]. unfold trap_code. rewrite <- !app_assoc. do 5 f_equal.
  - intros fi std NE. destruct (LIT info fi std (#"ArgNames:[]string{" ++ quoted_names (fi_params info) ++ #"}")) as (a & b & E).
    + unfold func_extra. destruct (fi_params info) as [|x xs]; [congruence|]. apply in_or_app; right. apply in_or_app; right. apply in_or_app; left. now left.
    + exists a, b. rewrite E. unfold quoted_names. now rewrite <- !app_assoc.
  - intros fi std NE. destruct (LIT info fi std (#"ResNames:[]string{" ++ quoted_names (fi_results info) ++ #"}")) as (a & b & E).
    + unfold func_extra. destruct (fi_results info) as [|x xs]; [congruence|]. apply in_or_app; right. apply in_or_app; right. apply in_or_app; right. now left.
    + exists a, b. rewrite E. unfold quoted_names. now rewrite <- !app_assoc.
Qed.
Print Assumptions C47_names.

Definition mthd : fdecl := {|
  d_name := #"Do"; d_body := Some (40, 1); d_nosplit := false;
  d_recv := [({| f_names := []; f_type := 6 |}, RStar (RIdent #"T"))];
  d_params := [{| f_names := [{| i_text := #"_"; i_start := 12; i_end := 13 |}; {| i_text := #"b"; i_start := 15; i_end := 16 |}]; f_type := 17 |}];
  d_params_close := 20; d_results := [{| f_names := []; f_type := 22 |}; {| f_names := []; f_type := 27 |}]; d_results_paren := true; d_line := 1; d_generic := false |}.
Example C47_example :
  NoDup (user_names mthd) /\ (forall n, In n (user_names mthd) -> ~ reserved n) /\
  exists ops info, trap_one 2 0 mthd 40 1 #"(*T).Do" (Some (true, false, #"T")) = Some (ops, info) /\
    fi_recv info = [#"__xgo_auto_rcv_0"] /\ fi_params info = [#"__xgo_auto_param_0"; #"b"] /\ fi_results info = [#"__xgo_auto_res_0"; #"__xgo_auto_res_1"].
Proof.
  split; [|split].
  - vm_compute. repeat constructor. intros [].
  - intros n I (r & E). vm_compute in I. destruct I as [<-|[]]. discriminate.
  - do 2 eexists. split; [vm_compute; reflexivity|]. repeat split; vm_compute; reflexivity.
Qed.

(** ** C48: which functions are instrumented *)
(** A function that can be instrumented, and is wanted: it has a body and a name, is no init
    function, is not //go:nosplit, is not one of the two time functions the tool needs. *)
Definition can_be (pkg : bytes) (d : fdecl) : Prop :=
  d_body d <> None /\ d_name d <> [] /\ d_name d <> #"_" /\ (d_recv d = [] -> d_name d <> #"init") /\
  (pkg = #"time" -> d_name d <> #"XgoRealNow" /\ d_name d <> #"XgoRealSleep") /\ d_nosplit d = false.
Definition is_mocked (o : opts) (d : fdecl) : Prop :=
  o_mock o (d_name d) = true \/ exists id p g t, identity d = Some (id, Some (p, g, t)) /\ o_mock_method o t (d_name d) = true.
Definition exported (n : bytes) : Prop := exists c r, n = c :: r /\ In c (list_ascii_of_string "ABCDEFGHIJKLMNOPQRSTUVWXYZ").
Definition configured (names prefixes : list bytes) (id : bytes) : Prop :=
  In id names \/ exists p r, In p prefixes /\ p <> [] /\ id = p ++ r.
Definition is_wanted (o : opts) (d : fdecl) : Prop :=
  o_mode o = All \/ is_mocked o d \/
  match o_cfg o with
  | Some (names, prefixes) => exists id t, identity d = Some (id, t) /\ configured names prefixes id
  | None => o_mode o = Exported /\ exported (d_name d)
  end.
(** Their identity names, in order. *)
Definition wanted (pkg : bytes) (o : opts) (d : fdecl) : bool :=
  eligible pkg d && match identity d with Some (id, t) => selected o (d_name d) id (recv_type t) | None => false end.
Definition id_of (d : fdecl) : bytes := match identity d with Some (id, _) => id | None => [] end.
Definition chosen (pkg : bytes) (o : opts) (ds : list fdecl) : list bytes := map id_of (filter (wanted pkg o) ds).

Lemma eligible_spec pkg d : eligible pkg d = true <-> can_be pkg d.
Proof.
  unfold eligible, can_be. destruct (d_body d) as [b|]; [|split; [discriminate|intros (H & _); congruence]].
  assert (B : negb (blank (d_name d)) = true <-> d_name d <> [] /\ d_name d <> #"_").
  { unfold blank. destruct (d_name d) as [|c n]; [split; [discriminate|intros [H _]; congruence]|].
    destruct (eqs (c :: n) #"_") eqn:E; [apply eqs_eq in E; split; [discriminate|tauto]|]. split; auto. intros _. split; [discriminate|]. intros X. rewrite X, eqs_refl in E. discriminate. }
  assert (I : negb (match d_recv d with [] => eqs (d_name d) #"init" | _ => false end) = true <-> (d_recv d = [] -> d_name d <> #"init")).
  { destruct (d_recv d); [|split; [discriminate|auto]]. rewrite negb_true_iff. split.
    - intros E _ X. rewrite X, eqs_refl in E. discriminate.
    - intros H. destruct (eqs (d_name d) #"init") eqn:E; auto. apply eqs_eq in E. now specialize (H eq_refl). }
  assert (T : negb (eqs pkg #"time" && (eqs (d_name d) #"XgoRealNow" || eqs (d_name d) #"XgoRealSleep")) = true <->
              (pkg = #"time" -> d_name d <> #"XgoRealNow" /\ d_name d <> #"XgoRealSleep")).
  { destruct (eqs pkg #"time") eqn:E.
    - apply eqs_eq in E. cbn [andb]. rewrite negb_true_iff, orb_false_iff. split.
      + intros [A C] _. split; intros X; rewrite X, eqs_refl in *; discriminate.
      + intros H. destruct (H E) as [A C]. split; [destruct (eqs (d_name d) #"XgoRealNow") eqn:Q|destruct (eqs (d_name d) #"XgoRealSleep") eqn:Q]; auto; apply eqs_eq in Q; contradiction.
    - split; auto. intros _ X. rewrite X, eqs_refl in E. discriminate. }
  rewrite !andb_true_iff, B, I, T, negb_true_iff. split.
  - intros ((((A1 & A2) & A3) & A4) & A5). repeat split; auto; try congruence; now apply A4.
  - intros (_ & A1 & A2 & A3 & A4 & A5). repeat split; auto; now apply A4.
Qed.
Lemma upper_spec n : is_upper_first n = true <-> exported n.
Proof.
  unfold is_upper_first, exported. destruct n as [|c n]; [split; [discriminate|intros (? & ? & [=] & _)]|]. split.
  - intros H. exists c, n. split; auto. apply andb_prop in H as [A B]. apply Nat.leb_le in A, B.
    destruct c as [b0 b1 b2 b3 b4 b5 b6 b7]. destruct b0, b1, b2, b3, b4, b5, b6, b7; cbv in A, B; try (exfalso; lia); simpl; tauto.
  - intros (c' & r & [= <- <-] & I). simpl in I. repeat destruct I as [<-|I]; try reflexivity. destruct I.
Qed.
Lemma wanted_spec pkg o d id t : identity d = Some (id, t) -> (wanted pkg o d = true <-> can_be pkg d /\ is_wanted o d).
Proof.
  intros I. unfold wanted. rewrite I, andb_true_iff, eligible_spec.
  assert (S : selected o (d_name d) id (recv_type t) = true <-> is_wanted o d); [|tauto].
  assert (M : mocked o (d_name d) (recv_type t) = true <-> is_mocked o d).
  { unfold mocked, is_mocked. rewrite orb_true_iff, I. destruct t as [[[p g] t]|]; cbn [recv_type option_map snd]; split; intros [H|H]; auto.
    - right. exists id, p, g, t. auto.
    - destruct H as (? & ? & ? & ? & [= <- <- <- <-] & H). auto.
    - discriminate.
    - destruct H as (? & ? & ? & ? & [=] & _). }
  assert (C : forall ns ps, existsb (eqs id) ns || existsb (fun p => match p with [] => false | _ => has_prefix id p end) ps = true <-> configured ns ps id).
  { intros ns ps. unfold configured. rewrite orb_true_iff, !existsb_exists. split; intros [H|H].
    - left. destruct H as (x & X & E). apply eqs_eq in E. now subst.
    - right. destruct H as (p & P & E). destruct p as [|c p]; [discriminate|]. apply has_prefix_sound in E as (r & E). exists (c :: p), r. repeat split; auto. discriminate.
    - left. exists id. split; auto. apply eqs_refl.
    - right. destruct H as (p & r & P & N & E). exists p. split; auto. destruct p as [|c p]; [congruence|]. rewrite E. apply has_prefix_app. }
  unfold selected, is_wanted. destruct (o_mode o) eqn:Mo.
  - rewrite orb_true_iff, M. destruct (o_cfg o) as [[ns ps]|].
    + rewrite C. split; [intros [H|H]; [tauto|right; right; exists id, t; auto]|].
      intros [H|[H|(? & ? & E & H)]]; [discriminate|tauto|]. rewrite I in E. injection E as <- <-. tauto.
    + rewrite upper_spec. split; [tauto|]. intros [H|[H|[_ H]]]; [discriminate|tauto|tauto].
  - tauto.
  - rewrite orb_true_iff, M. destruct (o_cfg o) as [[ns ps]|].
    + rewrite C. split; [intros [H|H]; [tauto|right; right; exists id, t; auto]|].
      intros [H|[H|(? & ? & E & H)]]; [discriminate|tauto|]. rewrite I in E. injection E as <- <-. tauto.
    + split; [intros [H|H]; [tauto|discriminate]|]. intros [H|[H|[H _]]]; try discriminate. tauto.
Qed.

Lemma trap_funcs_step pkg fi o d ds r r' : trap_funcs pkg fi o (d :: ds) r = Some r' -> wanted pkg o d = false -> trap_funcs pkg fi o ds r = Some r'.
Proof.
  cbn [trap_funcs]. unfold wanted. destruct (d_body d) as [[lb line]|] eqn:B; auto.
  destruct (eligible pkg d); cbn [negb andb]; auto. destruct (identity d) as [[id t]|]; [|discriminate]. intros H W. rewrite W in H. exact H.
Qed.
Lemma wanted_inv pkg o d : wanted pkg o d = true -> exists lb line id t, d_body d = Some (lb, line) /\ eligible pkg d = true /\ identity d = Some (id, t) /\ selected o (d_name d) id (recv_type t) = true /\ id_of d = id.
Proof.
  unfold wanted, id_of. intros H. apply andb_prop in H as [E H]. destruct (identity d) as [[id t]|]; [|discriminate].
  assert (B := E). unfold eligible in B. destruct (d_body d) as [[lb line]|]; [|discriminate]. exists lb, line, id, t. auto.
Qed.
(** in the main package *)
Lemma trap_main pkg fi o ds : (o_main o = true \/ o_force o = true) -> forall r r', trap_funcs pkg fi o ds r = Some r' ->
  map fi_identity (r_infos r') = map fi_identity (r_infos r) ++ chosen pkg o ds /\ r_extras r' = r_extras r /\ r_quota r' = r_quota r.
Proof.
  intros M. unfold chosen. induction ds as [|d ds IH]; intros r r' H.
  - injection H as <-. simpl. now rewrite app_nil_r.
  - destruct (wanted pkg o d) eqn:W; [|cbn [filter]; rewrite W; apply IH; eapply trap_funcs_step; eauto].
    cbn [filter]. rewrite W. destruct (wanted_inv _ _ _ W) as (lb & line & id & t & B & E & I & Sl & X). cbn [trap_funcs] in H.
    rewrite B, E, I, Sl in H. cbn [negb] in H. replace (negb (o_main o) && negb (o_force o)) with false in H by (destruct M as [-> | ->]; [reflexivity|now rewrite andb_false_r]).
    destruct (trap_one fi (length (r_infos r)) d lb line id t) as [[ops info]|] eqn:T; [|discriminate].
    apply IH in H as (H1 & H2 & H3). cbn [r_infos r_extras r_quota] in *. rewrite H1, map_app, <- app_assoc. cbn [map app]. rewrite X.
    assert (fi_identity info = id) as ->; [|auto].
    { unfold trap_one in T. destruct (process_fields recv_prefix None 0 _). destruct (1 <? _); [discriminate|].
      destruct (process_fields param_prefix None 0 _). destruct (process_fields result_prefix _ 0 _).
      match type of T with Some (?a, ?b) = Some _ => assert (Qi : info = b) by congruence end. now rewrite Qi. }
Qed.
(** outside, everything wanted *)
Lemma trap_all pkg fi o ds : o_main o = false -> o_force o = false -> o_mode o = All -> forall r r', trap_funcs pkg fi o ds r = Some r' ->
  r_extras r' = r_extras r ++ chosen pkg o ds /\ r_infos r' = r_infos r /\ r_ops r' = r_ops r /\ r_quota r' = r_quota r.
Proof.
  intros M F A. unfold chosen. induction ds as [|d ds IH]; intros r r' H.
  - injection H as <-. simpl. now rewrite app_nil_r.
  - destruct (wanted pkg o d) eqn:W; [|cbn [filter]; rewrite W; apply IH; eapply trap_funcs_step; eauto].
    cbn [filter]. rewrite W. destruct (wanted_inv _ _ _ W) as (lb & line & id & t & B & E & I & Sl & X). cbn [trap_funcs] in H.
    rewrite B, E, I, Sl, M, F, A in H. cbn [negb andb] in H. apply IH in H as (H1 & H2). cbn [r_infos r_extras r_ops r_quota] in *.
    split; [|exact H2]. rewrite H1, <- app_assoc. cbn [map]. now rewrite X.
Qed.
(** outside, within the quotas *)
Lemma trap_quota pkg fi o ds n : o_main o = false -> o_force o = false -> o_mode o <> All -> forall r r', r_quota r = Some n -> length (r_extras r) <= 16 ->
  trap_funcs pkg fi o ds r = Some r' ->
  let k := Nat.min (16 - length (r_extras r)) n in
  r_extras r' = r_extras r ++ firstn k (chosen pkg o ds) /\ r_infos r' = r_infos r /\ r_ops r' = r_ops r /\
  r_quota r' = Some (n - length (firstn k (chosen pkg o ds))).
Proof.
  intros M F A. unfold chosen. revert n. induction ds as [|d ds IH]; intros n r r' Q L H.
  - injection H as <-. cbn. rewrite firstn_nil, app_nil_r, Q. repeat split; auto. f_equal. simpl. lia.
  - destruct (wanted pkg o d) eqn:W; [|cbn [filter]; rewrite W; apply IH; auto; eapply trap_funcs_step; eauto].
    cbn [filter]. rewrite W. destruct (wanted_inv _ _ _ W) as (lb & line & id & t & B & E & I & Sl & X).
    assert (STOP : trap_funcs pkg fi o ds r = Some r' -> Nat.min (16 - length (r_extras r)) n = 0 ->
      r_extras r' = r_extras r ++ firstn 0 (map id_of (d :: filter (wanted pkg o) ds)) /\ r_infos r' = r_infos r /\ r_ops r' = r_ops r /\
      r_quota r' = Some (n - length (firstn 0 (map id_of (d :: filter (wanted pkg o) ds))))).
    { intros H' Z. pose proof (IH n r r' Q L H') as G. cbv zeta in G. rewrite Z in G. cbn [firstn] in *. exact G. }
    cbn [trap_funcs] in H. rewrite B, E, I, Sl, M, F in H. cbn [negb andb] in H.
    assert (H' : (if length (r_extras r) <? max_per_file
                  then match r_quota r with
                       | Some 0 => trap_funcs pkg fi o ds r
                       | q => trap_funcs pkg fi o ds {| r_ops := r_ops r; r_infos := r_infos r; r_extras := r_extras r ++ [id]; r_quota := option_map pred q |}
                       end else trap_funcs pkg fi o ds r) = Some r') by (destruct (o_mode o); [exact H|congruence|exact H]).
    clear H. cbv zeta. unfold max_per_file in H'. destruct (Nat.ltb_spec (length (r_extras r)) 16) as [Lt|Ge].
    + rewrite Q in H'. destruct n as [|n].
      * replace (Nat.min _ 0) with 0 by lia. apply STOP; auto. lia.
      * cbn [option_map pred] in H'. apply (IH n) in H' as (H1 & H2 & H3 & H4); cbn [r_infos r_extras r_ops r_quota] in *; auto; [|rewrite app_length; simpl; lia].
        rewrite app_length in *. cbn [length] in *.
        replace (Nat.min (16 - length (r_extras r)) (S n)) with (S (Nat.min (16 - (length (r_extras r) + 1)) n)) by lia.
        cbn [map firstn length]. rewrite H1, H2, H3, H4, X, <- app_assoc. repeat split; auto.
    + replace (Nat.min (16 - length (r_extras r)) n) with 0 by lia. apply STOP; auto. lia.
Qed.

(** The files of one package (outside the main package, not all functions wanted): each gets
    the first 16 of its wanted functions, all together the first 96. *)
Fixpoint within_quota (n : nat) (files : list (list bytes)) : list (list bytes) :=
  match files with [] => [] | l :: r => let taken := firstn (Nat.min 16 n) l in taken :: within_quota (n - length taken) r end.
Lemma trap_files_quota pkg o : o_main o = false -> o_force o = false -> o_mode o <> All -> forall files n i rs,
  trap_files pkg o (Some n) i files = Some rs ->
  map r_extras rs = within_quota n (map (chosen pkg o) files).
Proof.
  intros M F A. induction files as [|ds files IH]; intros n i rs H; cbn [trap_files] in H.
  - injection H as <-. reflexivity.
  - destruct (trap_funcs pkg i o ds _) as [r|] eqn:T; [|discriminate].
    pose proof (trap_quota pkg i o ds n M F A {| r_ops := []; r_infos := []; r_extras := []; r_quota := Some n |} r eq_refl (Nat.le_0_l _) T) as G. cbv zeta in G. cbn [r_extras r_quota app length] in G. rewrite Nat.sub_0_r in G. destruct G as (G1 & _ & _ & G2).
    rewrite G2 in H. destruct (trap_files pkg o _ (S i) files) as [rs'|] eqn:E; [|discriminate]. cbn [option_map] in H. injection H as <-.
    cbn [map within_quota]. f_equal; auto. now apply (IH _ (S i)).
Qed.
Lemma trap_files_infos pkg o : o_main o = false -> o_force o = false -> o_mode o <> All -> forall files n i rs,
  trap_files pkg o (Some n) i files = Some rs -> Forall (fun r => r_infos r = []) rs.
Proof.
  intros M F A. induction files as [|ds files IH]; intros n i rs H; cbn [trap_files] in H; [injection H as <-; constructor|].
  destruct (trap_funcs pkg i o ds _) as [r|] eqn:T; [|discriminate].
  pose proof (trap_quota pkg i o ds n M F A {| r_ops := []; r_infos := []; r_extras := []; r_quota := Some n |} r eq_refl (Nat.le_0_l _) T) as (_ & G1 & _ & G2). rewrite G2 in H.
  destruct (trap_files pkg o _ (S i) files) as [rs'|] eqn:E; [|discriminate]. injection H as <-. constructor; eauto.
Qed.
Lemma within_quota_all l : forall n, Forall (fun x => length x <= 16) l -> length (concat l) <= n -> within_quota n l = l.
Proof.
  induction l as [|x l IH]; intros n F L; auto. inversion F; subst. cbn [within_quota concat] in *. rewrite app_length in L.
  rewrite firstn_all2 by lia. f_equal. apply IH; auto. lia.
Qed.

(** All files of a package: a function that can be instrumented is instrumented exactly when
    it is wanted (mocked, configured, or covered by the mode), if the package is the main
    package or everything in it is wanted or no more than 16 functions of a file and 96 of
    the package are wanted. *)
Theorem C48_wanted_functions_partial :
  forall pkg o files rs,
    trap_package pkg o files = Some rs ->
    (o_main o = true \/ o_force o = true \/ o_mode o = All \/
     (Forall (fun ds => length (chosen pkg o ds) <= 16) files /\ length (concat (map (chosen pkg o) files)) <= 96)) ->
    Forall2 (fun ds r => map fi_identity (r_infos r) ++ r_extras r = chosen pkg o ds) files rs /\
    (forall d id t, identity d = Some (id, t) -> (wanted pkg o d = true <-> can_be pkg d /\ is_wanted o d)).
Proof.
  intros pkg o files rs H C. unfold trap_package, max_per_pkg in H. split.
  - assert (G : forall files n i rs, trap_files pkg o (Some n) i files = Some rs -> (o_main o = true \/ o_force o = true \/ o_mode o = All) ->
      Forall2 (fun ds r => map fi_identity (r_infos r) ++ r_extras r = chosen pkg o ds) files rs).
    { clear. induction files as [|ds files IH]; intros n i rs H C; cbn [trap_files] in H.
      - injection H as <-. constructor.
      - destruct (trap_funcs pkg i o ds _) as [r|] eqn:T; [|discriminate].
        assert (G : map fi_identity (r_infos r) ++ r_extras r = chosen pkg o ds /\ r_quota r = Some n).
        { destruct (o_main o) eqn:M; [|destruct (o_force o) eqn:F]; [apply trap_main in T as (A & B & D); auto..|].
          - rewrite A, B, D. cbn. now rewrite app_nil_r.
          - rewrite A, B, D. cbn. now rewrite app_nil_r.
          - destruct C as [C|[C|C]]; try discriminate. apply trap_all in T as (A & B & _ & D); auto. now rewrite A, B, D. }
        destruct G as [G1 G2]. rewrite G2 in H. destruct (trap_files pkg o (Some n) (S i) files) as [rs'|] eqn:E; [|discriminate].
        cbn [option_map] in H. injection H as <-. constructor; auto. eapply IH; eauto. }
    destruct (o_main o) eqn:M; [eapply G; eauto|]. destruct (o_force o) eqn:F; [eapply G; eauto|].
    destruct (o_mode o) eqn:Mo; [|eapply G; eauto|].
    + destruct C as [C|[C|[C|[C1 C2]]]]; try discriminate. clear G.
      assert (X := trap_files_quota pkg o M F ltac:(congruence) _ _ _ _ H). rewrite within_quota_all in X; auto; [|now apply Forall_map'].
      assert (Y : Forall (fun r => r_infos r = []) rs).
      { eapply trap_files_infos; eauto. congruence. }
      clear -X Y. revert files X. induction Y as [|r rs R Y IH]; intros [|ds files] X; try discriminate; [constructor|]. injection X as X1 X2. constructor; auto. rewrite R. exact X1.
    + destruct C as [C|[C|[C|[C1 C2]]]]; try discriminate. clear G.
      assert (X := trap_files_quota pkg o M F ltac:(congruence) _ _ _ _ H). rewrite within_quota_all in X; auto; [|now apply Forall_map'].
      assert (Y : Forall (fun r => r_infos r = []) rs).
      { eapply trap_files_infos; eauto. congruence. }
      clear -X Y. revert files X. induction Y as [|r rs R Y IH]; intros [|ds files] X; try discriminate; [constructor|]. injection X as X1 X2. constructor; auto. rewrite R. exact X1.
  - intros d id t I. exact (wanted_spec pkg o d id t I).
Qed.
Print Assumptions C48_wanted_functions_partial.
