(** * C34, C47: instrumented sources keep the lines of the code; names of receivers,
    parameters and results.  Model: M_Instrument, M_Edit. *)
From Coq Require Import Ascii String List Arith ZArith Bool Lia.
From Verif Require Import M_Str M_Edit M_Coverage M_Instrument T_Edit T_Coverage.
Import ListNotations.
Open Scope nat_scope.

(** ** Specification *)
(** The number of line breaks before position p: its line, counted from 0. *)
Definition line_at (s : bytes) (p : nat) : nat := count_occ ascii_dec (firstn p s) nlc.
Definition no_newline (s : bytes) : Prop := ~ In nlc s.
(** Where the byte at p, kept by the edits q, is found in the edited text: after all new texts
    that start at or before p and all kept bytes before p. *)
Definition place (q : list edit) (p : nat) : nat :=
  length (flat_map e_new (filter (fun e => e_start e <=? p) q)) + length (filter (fun i => negb (covered q i)) (seq 0 p)).

(** ** Line breaks *)
Definition nonl (s : bytes) : bool := negb (containsc nlc s).
Lemma nonl_iff s : nonl s = true <-> no_newline s.
Proof.
  unfold nonl, no_newline. rewrite negb_true_iff. destruct (containsc nlc s) eqn:E.
  - apply containsc_in in E. split; [discriminate|tauto].
  - split; auto. intros _ I. apply containsc_in in I. congruence.
Qed.
Lemma nonl_app a b : nonl (a ++ b) = nonl a && nonl b.
Proof. unfold nonl. now rewrite containsc_app, negb_orb. Qed.
Lemma nonl_cons c b : nonl (c :: b) = negb (eqc c nlc) && nonl b.
Proof. unfold nonl, containsc. simpl. now rewrite negb_orb. Qed.
Lemma count_nonl s : nonl s = true -> count_occ ascii_dec s nlc = 0.
Proof. intros H. apply nonl_iff in H. now apply count_occ_not_In. Qed.
Lemma count_app s t : count_occ ascii_dec (s ++ t) nlc = count_occ ascii_dec s nlc + count_occ ascii_dec t nlc.
Proof. apply count_occ_app. Qed.

(** ** A kept byte and its line *)
Fixpoint front (q : list edit) (p : nat) (old : bytes) : bytes :=
  match old with
  | [] => []
  | c :: r => inserted q p ++ replaced q p ++ (if covered q p then [] else [c]) ++ front q (S p) r
  end.
Lemma edited_front q p a b : edited q p (a ++ b) = front q p a ++ edited q (p + length a) b.
Proof.
  revert p. induction a as [|c a IH]; intros p.
  - simpl. now rewrite Nat.add_0_r.
  - cbn [app edited front length]. rewrite IH, <- !app_assoc. now replace (S p + length a) with (p + S (length a)) by lia.
Qed.
Definition texts (q : list edit) (p : nat) : nat := length (inserted q p) + length (replaced q p).
Lemma texts_all q p : Forall (fun e => e_start e <= e_end e) q ->
  length (flat_map e_new (filter (fun e => e_start e =? p) q)) = texts q p.
Proof.
  unfold texts, inserted, replaced. induction 1 as [|e q V F IH]; auto. cbn [filter].
  destruct (e_start e =? p) eqn:E; cbn [andb]; auto. apply Nat.eqb_eq in E.
  destruct (Nat.eqb_spec (e_end e) p), (Nat.ltb_spec p (e_end e)); cbn [flat_map]; rewrite ?app_length; unfold bytes in *; lia.
Qed.
Lemma filter_split q p : length (flat_map e_new (filter (fun e => e_start e <=? S p) q)) =
  length (flat_map e_new (filter (fun e => e_start e <=? p) q)) + length (flat_map e_new (filter (fun e => e_start e =? S p) q)).
Proof.
  induction q as [|e q IH]; auto. cbn [filter].
  destruct (Nat.leb_spec (e_start e) (S p)), (Nat.leb_spec (e_start e) p), (Nat.eqb_spec (e_start e) (S p)); cbn [flat_map];
    rewrite ?app_length, ?IH; try lia.
Qed.
Lemma texts_0 q : length (flat_map e_new (filter (fun e => e_start e <=? 0) q)) = length (flat_map e_new (filter (fun e => e_start e =? 0) q)).
Proof. induction q as [|e q IH]; auto. cbn [filter]. destruct (e_start e); cbn [flat_map Nat.leb Nat.eqb]; rewrite ?app_length; lia. Qed.
Lemma front_snoc q p a c : front q p (a ++ [c]) = front q p a ++ inserted q (p + length a) ++ replaced q (p + length a) ++ (if covered q (p + length a) then [] else [c]).
Proof.
  revert p. induction a as [|d a IH]; intros p.
  - simpl. now rewrite Nat.add_0_r, app_nil_r.
  - cbn [app front length]. rewrite IH, <- !app_assoc. now replace (S p + length a) with (p + S (length a)) by lia.
Qed.
Lemma front_length q a : Forall (fun e => e_start e <= e_end e) q ->
  length (front q 0 a ++ inserted q (length a) ++ replaced q (length a)) = place q (length a).
Proof.
  intros V. induction a as [|c a IH] using rev_ind.
  - unfold place. simpl. rewrite Nat.add_0_r, texts_0, texts_all by auto. unfold texts. now rewrite app_length.
  - rewrite front_snoc. rewrite !app_length in *. simpl (0 + length a). simpl (length [c]). rewrite Nat.add_1_r.
    unfold place in *. rewrite filter_split, (texts_all q (S (length a))) by auto. unfold texts.
    rewrite seq_S, filter_app, app_length. cbn [filter plus]. destruct (covered q (length a)); cbn [negb length]; lia.
Qed.
Lemma kept_replaced q p : covered q p = false -> replaced q p = [].
Proof.
  unfold covered, replaced. induction q as [|e q IH]; auto. cbn [existsb filter]. intros H.
  apply orb_false_iff in H as [H1 H2]. destruct (e_start e =? p) eqn:E; cbn [andb]; auto.
  apply Nat.eqb_eq in E. rewrite E, Nat.leb_refl in H1. cbn [andb] in H1. rewrite H1. auto.
Qed.
Lemma edited_split q old p c : nth_error old p = Some c -> covered q p = false ->
  exists b, edited q 0 old = (front q 0 (firstn p old) ++ inserted q p ++ replaced q p) ++ c :: b /\ length (firstn p old) = p.
Proof.
  intros N C. destruct (nth_error_split _ _ N) as (a & b & -> & L). subst p.
  rewrite firstn_app, Nat.sub_diag, firstn_all, app_nil_r. rewrite edited_front.
  cbn [plus edited]. rewrite C. cbn [app]. eexists. rewrite <- !app_assoc. split; [reflexivity|reflexivity].
Qed.

(** New texts without line breaks, at or before p. *)
Definition texts_ok (q : list edit) (p : nat) : Prop := forall e, In e q -> e_start e <= p -> nonl (e_new e) = true.
Definition bytes_ok (q : list edit) (old : bytes) (p : nat) : Prop := forall i, i < p -> covered q i = true -> nth_error old i <> Some nlc.
Lemma flat_ok f q p : texts_ok q p -> (forall e, f e = true -> e_start e <= p) -> nonl (flat_map e_new (filter f q)) = true.
Proof.
  unfold texts_ok. induction q as [|e q IH]; auto. intros H F. cbn [filter]. destruct (f e) eqn:E; [|apply IH; auto; intros; apply H; auto; now right].
  cbn [flat_map]. rewrite nonl_app. rewrite H; [|now left|now apply F]. simpl. apply IH; auto. intros; apply H; auto. now right.
Qed.
Lemma ins_ok q p : texts_ok q p -> nonl (inserted q p) = true /\ nonl (replaced q p) = true.
Proof.
  intros H. split; eapply flat_ok; eauto; intros e E; apply andb_prop in E as [E _]; apply Nat.eqb_eq in E; lia.
Qed.
Lemma texts_ok_le q p p' : p' <= p -> texts_ok q p -> texts_ok q p'.
Proof. unfold texts_ok. intros. apply H0; auto. lia. Qed.
Lemma front_count q a : (forall p, p < length a -> texts_ok q p) -> bytes_ok q a (length a) ->
  count_occ ascii_dec (front q 0 a) nlc = count_occ ascii_dec a nlc.
Proof.
  induction a as [|c a IH] using rev_ind; auto. intros T B. rewrite front_snoc, !count_app. cbn [plus].
  rewrite app_length in *. simpl in *.
  destruct (ins_ok q (length a)) as [I1 I2]; [apply T; lia|].
  rewrite (count_nonl _ I1), (count_nonl _ I2). rewrite IH.
  - destruct (covered q (length a)) eqn:C; auto. simpl. destruct (ascii_dec c nlc) as [->|]; auto.
    exfalso. apply (B (length a)); auto; [lia|]. rewrite nth_error_app2, Nat.sub_diag by lia. reflexivity.
  - intros. apply T. lia.
  - intros i L C. specialize (B i ltac:(lia) C). now rewrite nth_error_app1 in B by lia.
Qed.
Lemma kept_line q old p c : Forall (fun e => e_start e <= e_end e) q -> nth_error old p = Some c -> covered q p = false ->
  texts_ok q p -> bytes_ok q old p ->
  nth_error (edited q 0 old) (place q p) = Some c /\ line_at (edited q 0 old) (place q p) = line_at old p.
Proof.
  intros V N C T B. destruct (edited_split q old p c N C) as (b & E & L). rewrite E.
  pose proof (front_length q (firstn p old) V) as FL. rewrite L in FL. rewrite <- FL.
  split.
  - rewrite nth_error_app2, Nat.sub_diag by lia. reflexivity.
  - unfold line_at. rewrite firstn_app, firstn_all, Nat.sub_diag. cbn [firstn]. rewrite app_nil_r, !count_app.
    destruct (ins_ok q p T) as [I1 I2]. rewrite (count_nonl _ I1), (count_nonl _ I2), !Nat.add_0_r.
    apply front_count; rewrite L.
    + intros. eapply texts_ok_le; [|exact T]. lia.
    + intros i Li Ci X. apply (B i Li Ci). rewrite <- X. clear -Li. symmetry.
      revert i Li. generalize old. induction p as [|p IH]; intros l i Li; [lia|]. destruct l, i; simpl; auto. apply IH. lia.
Qed.

(** ** Generated texts have no line breaks *)
Lemma nonl_itoa n : nonl (itoa n) = true.
Proof. apply nonl_iff. intros I. apply format_int_chars in I as [_ I]. now apply I. Qed.
Lemma nonl_flat {A} (f : A -> bytes) l : Forall (fun x => nonl (f x) = true) l -> nonl (flat_map f l) = true.
Proof. induction 1; auto. cbn [flat_map]. now rewrite nonl_app, H, IHForall. Qed.
Lemma nonl_quote s : nonl (quote s) = true.
Proof.
  unfold quote. rewrite !nonl_app. cbn [nonl]. rewrite !andb_true_iff. split; [reflexivity|]. split; [|reflexivity].
  apply nonl_flat. apply Forall_forall. intros c _.
  destruct (eqc c (ascii_of_nat 34)) eqn:E1; [apply eqc_eq in E1; subst; reflexivity|].
  destruct (eqc c (ascii_of_nat 92)) eqn:E2; [apply eqc_eq in E2; subst; reflexivity|].
  destruct (eqc c (ascii_of_nat 10)) eqn:E3; [reflexivity|]. cbn [orb].
  apply nonl_iff. intros [->|[]]. now apply eqc_neq in E3.
Qed.
Lemma nonl_join sep l : nonl sep = true -> Forall (fun x => nonl x = true) l -> nonl (join sep l) = true.
Proof.
  intros S. induction 1 as [|x l H F IH]; auto. destruct l as [|y l]; auto. cbn [join] in *. now rewrite !nonl_app, H, S, IH.
Qed.
Lemma nonl_join_stmts l : forall last, Forall (fun x => nonl x = true) l -> nonl (join_stmts last l) = true.
Proof.
  induction l as [|x l IH]; intros last F; auto. inversion F; subst. cbn [join_stmts]. destruct x as [|c x]; auto.
  rewrite !nonl_app, H1, IH by auto. destruct (needs_sep last); reflexivity.
Qed.
Lemma nonl_stmts l : Forall (fun x => nonl x = true) l -> nonl (stmts l) = true.
Proof. apply nonl_join_stmts. Qed.
Lemma nonl_per n i : nonl n = true -> nonl (per_file n i) = true.
Proof. intros H. unfold per_file. now rewrite nonl_app, H, nonl_itoa. Qed.
Ltac nl1 :=
  match goal with
  | |- nonl (_ ++ _) = true => rewrite nonl_app; apply andb_true_iff; split
  | |- nonl (lit _) = true => reflexivity
  | |- nonl [] = true => reflexivity
  | |- nonl (itoa _) = true => apply nonl_itoa
  | |- nonl (per_file _ _) = true => apply nonl_per
  | |- nonl fields_text = true => reflexivity
  | |- nonl (quote _) = true => apply nonl_quote
  | |- nonl (stmts _) = true => apply nonl_stmts
  | |- nonl (join _ _) = true => apply nonl_join; [reflexivity|]
  | |- Forall _ (_ :: _) => constructor
  | |- Forall _ [] => constructor
  | H : nonl ?x = true |- nonl ?x = true => exact H
  end.
Ltac nl := repeat nl1.
Lemma nonl_info k i j : nonl k = true -> nonl (info_var k i j) = true.
Proof. intros. unfold info_var. nl. Qed.
Lemma nonl_addr n : nonl n = true -> nonl (addr n) = true.
Proof. intros. unfold addr. now rewrite nonl_cons, H. Qed.
Lemma nonl_addrs l : Forall (fun n => nonl n = true) l -> Forall (fun n => nonl n = true) (map addr l).
Proof. induction 1; simpl; constructor; auto using nonl_addr. Qed.
Lemma nonl_trap line i info recv ps rs : nonl info = true -> nonl recv = true ->
  Forall (fun n => nonl n = true) ps -> Forall (fun n => nonl n = true) rs -> nonl (trap_code line i info recv ps rs) = true.
Proof. intros. unfold trap_code. nl; auto. Qed.
Lemma nonl_gen i p n info t : nonl p = true -> nonl n = true -> nonl info = true -> nonl t = true -> nonl (gen_code i p n info t) = true.
Proof. intros. unfold gen_code. nl. Qed.
Lemma nonl_literal i fv k n id line std extra : nonl fv = true -> Forall (fun n => nonl n = true) extra ->
  nonl (make_literal i fv k n id line std extra) = true.
Proof.
  intros. unfold make_literal. nl.
  - destruct extra as [|y e]; [reflexivity|]. rewrite nonl_app; apply andb_true_iff; split; [reflexivity|]. apply nonl_join; [reflexivity|assumption].
  - destruct std; nl.
Qed.
Definition lit_ok (l : bytes * bytes * bytes) : Prop := nonl (fst (fst l)) = true /\ nonl (snd (fst l)) = true /\ nonl (snd l) = true.
Lemma lit_ok_define i v l d : nonl v = true -> nonl l = true -> match d with Some x => nonl x = true | None => True end -> lit_ok (define_literal i v l d).
Proof.
  intros V L D. unfold define_literal, lit_ok. cbn [fst snd]. repeat split; nl.
  destruct d; nl.
Qed.
Lemma nonl_names l : nonl (quoted_names l) = true.
Proof. unfold quoted_names. nl. apply Forall_forall. intros x I. apply in_map_iff in I as (y & <- & _). apply nonl_quote. Qed.
Lemma lit_ok_func i std f : nonl (fi_var f) = true -> nonl (fi_identity f) = true -> lit_ok (func_literal i std f).
Proof.
  intros V I. unfold func_literal. apply lit_ok_define; auto.
  - apply nonl_literal; [apply nonl_per; reflexivity|]. unfold func_extra. repeat (apply Forall_app; split).
    + destruct (fi_recv f); nl. destruct (fi_rtype f) as [[[[] ?] ?]|]; reflexivity.
    + destruct (_ || _); nl.
    + destruct (fi_params f); nl. apply nonl_names.
    + destruct (fi_results f); nl. apply nonl_names.
  - destruct (_ || _); auto.
Qed.
Lemma lit_ok_var i std v : nonl (fst (fst v)) = true -> nonl (snd (fst v)) = true -> lit_ok (var_literal i std v).
Proof.
  destruct v as [[v n] line]. cbn [fst snd]. intros V N. unfold var_literal. apply lit_ok_define; auto.
  apply nonl_literal; [apply nonl_per; reflexivity|]. nl.
Qed.
Lemma lit_ok_intf i std v : nonl (fst (fst v)) = true -> lit_ok (intf_literal i std v).
Proof.
  destruct v as [[v n] line]. cbn [fst snd]. intros V. unfold intf_literal. apply lit_ok_define; auto.
  apply nonl_literal; [apply nonl_per; reflexivity|]. nl.
Qed.
Lemma Forall_map' {A B} (f : A -> B) (P : B -> Prop) l : Forall (fun x => P (f x)) l -> Forall P (map f l).
Proof. induction 1; simpl; auto. Qed.
Lemma nonl_reg i pkg file ls : Forall lit_ok ls -> nonl (reg_code i pkg file ls) = true.
Proof.
  intros F. unfold reg_code. nl. unfold reg_stmts. nl.
  - apply Forall_map'. eapply Forall_impl; [|exact F]. intros x X. apply X.
  - assert (D : nonl (stmts (map snd ls)) = true).
    { nl. apply Forall_map'. eapply Forall_impl; [|exact F]. intros x X. apply X. }
    destruct (stmts (map snd ls)); nl.
  - apply Forall_map'. eapply Forall_impl; [|exact F]. intros x X. apply X.
Qed.

(** ** C34 *)
(** What holds of positions and names read from a parsed source file. *)
Definition ident_at (old : bytes) (n : ident) : Prop :=
  i_start n <= i_end n <= length old /\ firstn (i_end n - i_start n) (skipn (i_start n) old) = i_text n /\ no_newline (i_text n).
Definition idents (d : fdecl) : list ident := flat_map (fun f => f_names f) (map fst (d_recv d) ++ d_params d ++ d_results d).
Fixpoint type_name (x : rexpr) : bytes :=
  match x with RIdent n => n | RStar y => type_name y | RIndex y => type_name y | RSel _ n => n | ROther => [] end.
Definition func_at (old : bytes) (d : fdecl) : Prop :=
  Forall (ident_at old) (idents d) /\ no_newline (d_name d) /\ Forall (fun r => no_newline (type_name (snd r))) (d_recv d).
Definition var_at (v : vdecl) : Prop := no_newline (v_name v) /\ Forall (fun i => no_newline (fst i)) (v_imports v).
Definition source (old : bytes) (g : gofile) : Prop :=
  Forall (func_at old) (g_funcs g) /\ Forall var_at (g_vars g).
(** What is missing: types of variables written on one line, and & on the line of its
    operand. *)
Definition one_line (old : bytes) (v : vdecl) : Prop :=
  no_newline (v_type v) /\
  Forall (fun r => match vr_addr r with Some (a, x) => forall i, a <= i < x -> nth_error old i <> Some nlc | None => True end) (v_refs v).

Definition ok_edit (old : bytes) (e : edit) : Prop :=
  nonl (e_new e) = true /\ forall i, e_start e <= i < e_end e -> nth_error old i <> Some nlc.
Definition ok_ops (old : bytes) (ops : list op) : Prop := Forall (ok_edit old) (edits_of old ops).
Lemma ok_ops_app old a b : ok_ops old a -> ok_ops old b -> ok_ops old (a ++ b).
Proof. unfold ok_ops, edits_of. rewrite flat_map_app. intros. now apply Forall_app. Qed.
Lemma ok_nil old : ok_ops old []. Proof. constructor. Qed.
Lemma ok_insert old p s ops : nonl s = true -> ok_ops old ops -> ok_ops old (OInsert p s :: ops).
Proof. intros H O. constructor; auto. split; auto. simpl. lia. Qed.
Lemma ident_no_nl old n i : ident_at old n -> i_start n <= i < i_end n -> nth_error old i <> Some nlc.
Proof.
  intros (L & T & N) B X. apply N. rewrite <- T. destruct (nth_error_split _ _ X) as (a & b & -> & La).
  rewrite skipn_app. replace (i_start n - length a) with 0 by lia. cbn [skipn]. rewrite firstn_app, skipn_length.
  apply in_or_app. right. replace (i_end n - i_start n - (length a - i_start n)) with (S (i_end n - i - 1)) by lia. now left.
Qed.
Lemma nonl_prefix_seq p n : nonl p = true -> nonl (p ++ itoa n) = true. Proof. intros. nl. Qed.
Lemma name_fields_ok old prefix ns : nonl prefix = true -> Forall (ident_at old) ns -> forall seq,
  ok_ops old (fst (name_fields prefix seq ns)) /\ Forall (fun n => nonl n = true) (snd (name_fields prefix seq ns)).
Proof.
  intros P. induction 1 as [|n ns I F IH]; intros seq; [split; constructor|]. cbn [name_fields].
  specialize (IH (S seq)). destruct (name_fields prefix (S seq) ns) as [ops names]. cbn [fst snd] in IH. destruct IH as [A B].
  destruct (blank (i_text n)); cbn [fst snd].
  - split; [|constructor; auto using nonl_prefix_seq]. constructor; auto. split; [now apply nonl_prefix_seq|]. cbn [e_start e_end end_of].
    intros i. now apply ident_no_nl.
  - split; auto. constructor; auto. apply nonl_iff. apply I.
Qed.
Lemma process_ok old prefix paren fs : nonl prefix = true -> Forall (ident_at old) (flat_map (fun f => f_names f) fs) -> forall seq,
  ok_ops old (fst (process_fields prefix paren seq fs)) /\ Forall (fun n => nonl n = true) (snd (process_fields prefix paren seq fs)).
Proof.
  intros P. induction fs as [|f fs IH]; intros F seq; [split; constructor|]. cbn [flat_map] in F. apply Forall_app in F as [F1 F2].
  cbn [process_fields]. destruct (f_names f) as [|n ns] eqn:E.
  - specialize (IH F2 (S seq)). destruct (process_fields prefix paren (S seq) fs) as [ops names]. cbn [fst snd] in *. destruct IH as [A B]. split.
    + apply ok_ops_app; [destruct paren as [[o c]|]; repeat (apply ok_insert; [reflexivity|]); apply ok_nil|].
      apply ok_insert; auto. nl.
    + constructor; auto using nonl_prefix_seq.
  - destruct (name_fields_ok old prefix (n :: ns) P F1 seq) as [A1 B1]. destruct (name_fields prefix seq (n :: ns)) as [ops1 names1].
    specialize (IH F2 (seq + length (n :: ns))). destruct (process_fields prefix paren (seq + length (n :: ns)) fs) as [ops2 names2].
    cbn [fst snd] in *. destruct IH. split; [now apply ok_ops_app|now apply Forall_app].
Qed.
Definition info_ok (f : finfo) : Prop := nonl (fi_var f) = true /\ nonl (fi_identity f) = true.
Lemma trap_one_ok old fi i d lb line id t ops info : func_at old d -> nonl id = true ->
  trap_one fi i d lb line id t = Some (ops, info) -> ok_ops old ops /\ info_ok info.
Proof.
  intros (F & _ & _) I. unfold trap_one. unfold idents in F. rewrite !flat_map_app in F. apply Forall_app in F as [F1 F]. apply Forall_app in F as [F2 F3].
  destruct (process_ok old recv_prefix None _ eq_refl F1 0) as [A1 B1]. destruct (process_fields recv_prefix None 0 _) as [o1 n1].
  destruct (1 <? length n1); [discriminate|].
  destruct (process_ok old param_prefix None _ eq_refl F2 0) as [A2 B2]. destruct (process_fields param_prefix None 0 _) as [o2 n2].
  destruct (process_ok old result_prefix (result_paren d) _ eq_refl F3 0) as [A3 B3]. destruct (process_fields result_prefix (result_paren d) 0 _) as [o3 n3].
  cbn [fst snd] in *. intros Q. inversion Q; subst; clear Q. split.
  - repeat apply ok_ops_app; auto. apply ok_insert; [|apply ok_nil]. apply nonl_trap; auto using nonl_addrs.
    + apply nonl_info. reflexivity.
    + unfold recv_addr. destruct n1 as [|n n1]; [reflexivity|]. inversion B1; subst. destruct n; [reflexivity|]. now apply nonl_addr.
  - split; auto. cbn [fi_var]. apply nonl_info. reflexivity.
Qed.
Lemma identity_ok old d id t : func_at old d -> identity d = Some (id, t) -> nonl id = true.
Proof.
  intros (_ & N & R). apply nonl_iff in N. unfold identity. destruct (d_recv d) as [|[f x] [|]]; [now intros [= <- _]| |discriminate].
  inversion R as [|? ? R1 _]; subst. cbn [snd] in R1. apply nonl_iff in R1.
  assert (G : forall p g t, parse_receiver x = Some (p, g, t) -> nonl t = true).
  { clear -R1. intros p g t. unfold parse_receiver. destruct x as [|[| |[]| |]|[]| |]; intros [= <- <- <-]; auto. }
  destruct (parse_receiver x) as [[[p g] tn]|]; [|discriminate]. specialize (G p g tn eq_refl). intros Q. apply (f_equal (fun o => match o with Some (a, _) => a | None => id end)) in Q. cbv beta iota in Q. rewrite <- Q. clear Q.
  destruct p; nl.
Qed.
Lemma trap_funcs_ok old pkg fi o ds : Forall (func_at old) ds -> forall r r', ok_ops old (r_ops r) -> Forall info_ok (r_infos r) ->
  trap_funcs pkg fi o ds r = Some r' -> ok_ops old (r_ops r') /\ Forall info_ok (r_infos r').
Proof.
  induction 1 as [|d ds D F IH]; intros r r' A B; cbn [trap_funcs].
  - intros [= <-]. auto.
  - destruct (d_body d) as [[lb line]|]; [|apply IH; auto].
    destruct (negb (eligible pkg d)); [apply IH; auto|].
    destruct (identity d) as [[id t]|] eqn:E; [|discriminate].
    destruct (negb (selected o (d_name d) id (recv_type t))); [apply IH; auto|].
    assert (X : forall q, ok_ops old (r_ops r) -> Forall info_ok (r_infos r) -> forall r', trap_funcs pkg fi o ds {| r_ops := r_ops r; r_infos := r_infos r; r_extras := r_extras r ++ [id]; r_quota := q |} = Some r' ->
      ok_ops old (r_ops r') /\ Forall info_ok (r_infos r')) by (intros; eapply IH; [| |eassumption]; auto).
    destruct (negb (o_main o) && negb (o_force o)).
    + destruct (o_mode o); [|now apply X|].
      all: destruct (length (r_extras r) <? max_per_file); [|now apply IH]; destruct (r_quota r) as [[|k]|]; [now apply IH|now apply X|now apply X].
    + destruct (trap_one fi (length (r_infos r)) d lb line id t) as [[ops info]|] eqn:T; [|discriminate].
      destruct (trap_one_ok old _ _ _ _ _ _ _ _ _ D (identity_ok _ _ _ _ D E) T) as [O1 I1].
      intros Q. eapply IH; [| |exact Q]; cbn [r_ops r_infos]; [now apply ok_ops_app|]. apply Forall_app. auto.
Qed.
Lemma rewrite_refs_ok old prefix refs : nonl prefix = true ->
  Forall (fun r => match vr_addr r with Some (a, x) => forall i, a <= i < x -> nth_error old i <> Some nlc | None => True end) refs ->
  ok_ops old (flat_map (rewrite_ref prefix) refs).
Proof.
  intros P. induction 1 as [|r refs R F IH]; [apply ok_nil|]. cbn [flat_map]. apply ok_ops_app; auto. unfold rewrite_ref.
  apply ok_ops_app.
  - destruct (vr_addr r) as [[a x]|]; [|apply ok_nil]. destruct (vr_field r); [apply ok_nil|].
    constructor; [|constructor]. split; auto.
  - apply ok_ops_app; [destruct prefix; [apply ok_nil|apply ok_insert; [auto|apply ok_nil]]|].
    apply ok_insert; [destruct (vr_ptr r); reflexivity|apply ok_nil].
Qed.
Lemma rewrite_vars_ok old test fi pe vs : Forall var_at vs -> Forall (one_line old) vs -> forall i,
  ok_ops old (fst (rewrite_vars test fi i pe vs)) /\ Forall (fun v => nonl (fst (fst v)) = true /\ nonl (snd (fst v)) = true) (snd (rewrite_vars test fi i pe vs)).
Proof.
  induction vs as [|v vs IH]; intros V O i; [split; constructor|]. inversion V as [|? ? [V1 V2] V3]; inversion O as [|? ? [O1 O2] O3]; subst.
  cbn [rewrite_vars]. destruct (v_type v) as [|c t] eqn:E; [now apply IH|]. rewrite <- E in *.
  specialize (IH V3 O3 (S i)). destruct (rewrite_vars test fi (S i) pe vs) as [ops regs]. cbn [fst snd] in *. destruct IH as [A B]. split.
  - apply ok_ops_app; auto. unfold rewrite_var. apply nonl_iff in V1, O1.
    assert (P : nonl (var_prefix test (v_name v)) = true) by (unfold var_prefix; destruct (_ && _); reflexivity).
    apply ok_ops_app.
    + clear -V2. induction V2 as [|x l X F IH]; [apply ok_nil|]. cbn [map]. apply nonl_iff in X. apply ok_insert; auto. nl.
    + repeat (apply ok_insert; [try reflexivity|]); [|now apply rewrite_refs_ok].
      apply nonl_gen; auto. apply nonl_info. reflexivity.
  - constructor; auto. cbn [fst snd]. split; [apply nonl_info; reflexivity|now apply nonl_iff].
Qed.

(** Instrumenting a file of the program under test: every byte of its code that is kept is
    found in the new text, on the same line; only blank identifiers and the & of rewritten
    references are not kept. *)
Theorem C34_code_keeps_its_line_partial :
  forall old o g ops q new,
    source old g -> Forall (one_line old) (g_vars g) ->
    file_ops o g = Some ops -> queue old [] ops = Some q -> bytes_of old q = Some new ->
    forall p c, p < g_end g -> nth_error old p = Some c -> covered (edits_of old ops) p = false ->
      nth_error new (place (edits_of old ops) p) = Some c /\ line_at new (place (edits_of old ops) p) = line_at old p.
Proof.
  intros old o g ops q new (SF & SV) OL FO Q B p c P N C.
  pose proof (C27_edits_compose old ops) as H. rewrite Q in H. destruct H as (V & H1 & H2).
  assert (E : new = edited (edits_of old ops) 0 old).
  { destruct (bytes_of old q) as [n|]; [|discriminate]. injection B as <-.
    assert (NN : non_overlapping (edits_of old ops) \/ ~ non_overlapping (edits_of old ops)).
    { clear. induction (edits_of old ops) as [|e l IH]; [left; constructor|].
      assert (D : forall a b, disjoint a b \/ ~ disjoint a b) by (intros; unfold disjoint; lia).
      destruct IH as [IH|IH]; [|right; intros X; inversion X; contradiction].
      assert (FD : Forall (disjoint e) l \/ ~ Forall (disjoint e) l).
      { clear IH. induction l as [|x l IHl]; [left; constructor|]. destruct (D e x), IHl; [left; constructor; auto|right..]; intros X; inversion X; contradiction. }
      destruct FD; [left; constructor; auto|right; intros X; inversion X; contradiction]. }
    destruct NN as [NN|NN]; [now injection (H1 NN)|]. discriminate (H2 NN). }
  subst new.
  (* all edits but the one at the end of the last declaration *)
  assert (OK : forall e, In e (edits_of old ops) -> ok_edit old e \/ (e_start e = g_end g /\ e_end e = g_end g)).
  { unfold file_ops in FO. destruct (rewrite_vars_ok old (g_test g) (g_index g) (g_pkg_end g) (g_vars g) SV OL 0) as [A1 A2].
    destruct (rewrite_vars (g_test g) (g_index g) 0 (g_pkg_end g) (g_vars g)) as [ops1 vars]. cbn [fst snd] in *.
    destruct (trap_funcs _ _ _ _ _) as [r|] eqn:T; [|discriminate].
    eapply trap_funcs_ok in T as [T1 T2]; [|exact SF|apply ok_nil|constructor]. injection FO as <-.
    intros e I. unfold edits_of in I. rewrite !flat_map_app in I. apply in_app_or in I as [I|I]; [|apply in_app_or in I as [I|I]].
    - left. unfold ok_ops in A1. rewrite Forall_forall in A1. now apply A1.
    - left. unfold ok_ops in T1. rewrite Forall_forall in T1. now apply T1.
    - unfold register in I. set (intfs := match o_mode o with NoMode => [] | _ => _ end) in I.
      assert (IO : Forall (fun v => nonl (fst (fst v)) = true) intfs).
      { subst intfs. assert (G : forall l i, Forall (fun v => nonl (fst (fst v)) = true) (intf_infos (g_index g) i l)).
        { induction l as [|[n ln] l IH]; intros i; constructor; auto. cbn [fst]. apply nonl_info. reflexivity. }
        destruct (o_mode o); try constructor; destruct (o_main o); auto. }
      clearbody intfs.
      assert (LO : Forall lit_ok (literals (g_index g) (g_stdlib g) vars (r_infos r) intfs)).
      { unfold literals. repeat (apply Forall_app; split); apply Forall_map'.
        - eapply Forall_impl; [|exact A2]. intros v [X Y]. now apply lit_ok_var.
        - eapply Forall_impl; [|exact T2]. intros f [X Y]. now apply lit_ok_func.
        - eapply Forall_impl; [|exact IO]. intros v X. now apply lit_ok_intf. }
      destruct (literals _ _ _ _ _) as [|l0 ls]; [destruct I|]. cbn [flat_map asks app] in I. destruct I as [<-|[<-|[]]].
      + left. split; [|cbn [e_start e_end]; intros; lia]. cbn [e_new]. rewrite nonl_app, nonl_reg by auto. reflexivity.
      + right. auto. }
  apply kept_line; auto.
  - eapply Forall_impl; [|exact V]. unfold in_text. intros. lia.
  - intros e I L. destruct (OK e I) as [[X _]|[X _]]; auto. lia.
  - intros i L CI. unfold covered in CI. apply existsb_exists in CI as (e & I & CI). apply andb_prop in CI as [C1 C2].
    apply Nat.leb_le in C1. apply Nat.ltb_lt in C2. destruct (OK e I) as [[_ X]|[X Y]]; [apply X; lia|lia].
Qed.
Print Assumptions C34_code_keeps_its_line_partial.

Definition NL : bytes := [nlc].
Definition all_opts : opts := {| o_main := true; o_force := false; o_mode := All; o_mock := fun _ => false; o_mock_method := fun _ _ => false; o_cfg := None |}.
(** A file with a variable, a reference to its address and a function with a blank parameter. *)
Definition ex_old : bytes := #"package p" ++ NL ++ #"var x int" ++ NL ++ #"func f(_ int, b string) int {" ++ NL ++ #" return *(&x)" ++ NL ++ #"}" ++ NL.
Definition ex_file : gofile := {|
  g_pkg := #"a/p"; g_path := #"/p/x.go"; g_index := 3; g_test := false; g_stdlib := false; g_pkg_end := 9; g_insert := 19; g_end := 65;
  g_vars := [{| v_name := #"x"; v_line := 2; v_end := 19; v_type := #"int"; v_imports := [];
                v_refs := [{| vr_addr := Some (60, 61); vr_ptr := true; vr_start := 61; vr_end := 62; vr_field := false |}] |}];
  g_funcs := [{| d_name := #"f"; d_body := Some (48, 3); d_nosplit := false; d_recv := [];
                 d_params := [{| f_names := [{| i_text := #"_"; i_start := 27; i_end := 28 |}]; f_type := 29 |};
                              {| f_names := [{| i_text := #"b"; i_start := 34; i_end := 35 |}]; f_type := 36 |}];
                 d_params_close := 42; d_results := [{| f_names := []; f_type := 44 |}]; d_results_paren := false; d_line := 3; d_generic := false |}];
  g_intfs := [] |}.
Example C34_example :
  source ex_old ex_file /\ Forall (one_line ex_old) (g_vars ex_file) /\
  exists ops q new, file_ops all_opts ex_file = Some ops /\ queue ex_old [] ops = Some q /\ bytes_of ex_old q = Some new /\
    nth_error new (place (edits_of ex_old ops) 51) = Some "r"%char /\ line_at new (place (edits_of ex_old ops) 51) = 3 /\ length new > 1000 /\
    contains new #"func f(__xgo_auto_param_0 int, b string) ( __xgo_auto_res_0 int ){__xgo_post_3, __xgo_stop_3 := __xgo_trap_3(__xgo_func_info_3_0,nil,[]interface{}{&__xgo_auto_param_0,&b},[]interface{}{&__xgo_auto_res_0});if" = true /\
    contains new #" return *(x_xgo_get_addr())" = true.
Proof.
  split; [|split].
  - split; repeat constructor; try (apply nonl_iff; reflexivity); cbn; lia.
  - repeat constructor; try (apply nonl_iff; reflexivity). cbn [vr_addr].
    intros i L. assert (i = 60) as -> by lia. cbn. discriminate.
  - do 3 eexists. split; [vm_compute; reflexivity|]. split; [vm_compute; reflexivity|]. split; [vm_compute; reflexivity|].
    repeat split; try (vm_compute; reflexivity). apply Nat.leb_le. vm_compute. reflexivity.
Qed.

(** A type written on several lines is repeated in the accessors: the code after it moves. *)
Definition ml_old : bytes := #"package p" ++ NL ++ #"var x struct{" ++ NL ++ #"}" ++ NL ++ #"func f() { _ = x }" ++ NL.
Definition ml_file : gofile := {|
  g_pkg := #"p"; g_path := #"/p/x.go"; g_index := 0; g_test := false; g_stdlib := false; g_pkg_end := 9; g_insert := 25; g_end := 44;
  g_vars := [{| v_name := #"x"; v_line := 2; v_end := 25; v_type := #"struct{" ++ NL ++ #"}"; v_imports := [];
                v_refs := [{| vr_addr := None; vr_ptr := false; vr_start := 41; vr_end := 42; vr_field := false |}] |}];
  g_funcs := [{| d_name := #"f"; d_body := Some (35, 4); d_nosplit := false; d_recv := []; d_params := []; d_params_close := 33;
                 d_results := []; d_results_paren := false; d_line := 4; d_generic := false |}];
  g_intfs := [] |}.
Theorem C34_multi_line_type_refuted :
  ~ (forall old o g ops q new,
      source old g -> file_ops o g = Some ops -> queue old [] ops = Some q -> bytes_of old q = Some new ->
      forall p c, p < g_end g -> nth_error old p = Some c -> covered (edits_of old ops) p = false ->
        line_at new (place (edits_of old ops) p) = line_at old p).
Proof.
  intros H.
  assert (S : source ml_old ml_file).
  { split; repeat constructor; apply nonl_iff; reflexivity. }
  destruct (file_ops all_opts ml_file) as [ops|] eqn:E1; [|vm_compute in E1; discriminate].
  destruct (queue ml_old [] ops) as [q|] eqn:E2; [|vm_compute in E1; injection E1 as <-; vm_compute in E2; discriminate].
  destruct (bytes_of ml_old q) as [new|] eqn:E3; [|vm_compute in E1; injection E1 as <-; vm_compute in E2; injection E2 as <-; vm_compute in E3; discriminate].
  specialize (H ml_old all_opts ml_file ops q new S E1 E2 E3 26 "f"%char ltac:(cbn; lia) eq_refl).
  vm_compute in E1. injection E1 as <-. vm_compute in E2. injection E2 as <-. vm_compute in E3. injection E3 as <-.
  specialize (H eq_refl). vm_compute in H. discriminate.
Qed.
Print Assumptions C34_multi_line_type_refuted.
