(** * C36, C56: which identifiers are rewritten.  Model: M_Scope. *)
From Coq Require Import List Arith Bool String Lia.
From Verif Require Import M_Str M_Scope P_Str.
Import ListNotations.

(** ** Specification: Go's scopes
    The identifiers used as operands, each with its position, its name, the local names in
    scope there, and whether the variable is only assigned to.  This follows "Declarations and
    scope" of the Go specification and does not look at what xgo does. *)
Inductive kind := Read | Assigned.
Record use := { at_ : nat; name : bytes; locals : list bytes; what : kind }.
Definition target (G : list bytes) (e : expr) (other : list use) : list use :=
  match e with Id p x => [{| at_ := p; name := x; locals := G; what := Assigned |}] | _ => other end.

Fixpoint go_expr (G : list bytes) (e : expr) : list use :=
  match e with
  | Id p x => [{| at_ := p; name := x; locals := G; what := Read |}]
  | AddrField p x _ => [{| at_ := p; name := x; locals := G; what := Read |}]
  | Sub es => go_exprs G es
  | Slice3 es max => go_exprs G es ++ go_expr G max
  | KeyVal field key value => (match field, key with true, Id _ _ => [] | _, _ => go_expr G key end) ++ go_expr G value
  | Fun params body => go_stmts (params ++ G) body
  end
with go_exprs (G : list bytes) (es : exprs) : list use :=
  match es with Enil => [] | Econs e es => go_expr G e ++ go_exprs G es end
with go_targets (G : list bytes) (es : exprs) : list use :=
  match es with Enil => [] | Econs e es => target G e (go_expr G e) ++ go_targets G es end
with go_stmt (G : list bytes) (s : stmt) : list use :=
  match s with
  | SExpr es => go_exprs G es
  | SAssign lhs rhs => go_targets G lhs ++ go_exprs G rhs
  | SDefine _ rhs => go_exprs G rhs
  | SIncDec e => target G e (go_expr G e)
  | SRange names assigned x body => go_targets G assigned ++ go_expr G x ++ go_stmts (names ++ G) body
  | SIf init cond body els =>
      let G1 := match init with SDefine names _ => names ++ G | _ => G end in
      go_stmt G init ++ go_expr G1 cond ++ go_stmts G1 body ++ go_stmt G1 els
  | SFor init cond post body =>
      let G1 := match init with SDefine names _ => names ++ G | _ => G end in
      go_stmt G init ++ go_exprs G1 cond ++ go_stmt G1 post ++ go_stmts G1 body
  | SSwitch init tag cs =>
      let G1 := match init with SDefine names _ => names ++ G | _ => G end in
      let G2 := match tag with SDefine names _ => names ++ G1 | _ => G1 end in
      go_stmt G init ++ go_stmt G1 tag ++ go_clauses G1 G2 cs
  | SSelect cs => go_comms G cs
  | SVar _ values => go_exprs G values
  | SType _ => []
  | SBlock body => go_stmts G body
  | SNone => []
  end
with go_stmts (G : list bytes) (ss : stmts) : list use :=
  match ss with
  | Snil => []
  | Scons s ss =>
      go_stmt G s ++
      go_stmts (match s with SDefine names _ | SVar names _ => names | SType n => [n] | _ => [] end ++ G) ss
  end
with go_clauses (G G2 : list bytes) (cs : clauses) : list use :=
  match cs with Cnil => [] | Ccons l body cs => go_exprs G l ++ go_stmts G2 body ++ go_clauses G G2 cs end
with go_comms (G : list bytes) (cs : comms) : list use :=
  match cs with
  | Mnil => []
  | Mcons comm body cs =>
      go_stmt G comm ++ go_stmts (match comm with SDefine names _ => names ++ G | _ => G end) body ++ go_comms G cs
  end.
(** A function declaration: type parameters, then receiver, parameters and results. *)
Definition go_func (tparams params : list bytes) (body : stmts) : list use := go_stmts (params ++ tparams) body.
(** A use that denotes the package-level declaration of its name. *)
Definition global (u : use) : Prop := ~ In (name u) (locals u).

(** Conditions, for a set [var] of package variables. *)
Definition free_of (var : bytes -> bool) (l : list bytes) : bool := forallb (fun x => negb (var x)) l.
Definition declared (s : stmt) : list bytes :=
  match s with SDefine names _ | SVar names _ => names | SType n => [n] | SRange names _ _ _ => names | _ => [] end.
(** No [case v := <-c] declares the name of a package variable. *)
Fixpoint sel_expr (var : bytes -> bool) (e : expr) : bool :=
  match e with
  | Id _ _ | AddrField _ _ _ => true
  | Sub es => sel_exprs var es
  | Slice3 es m => sel_exprs var es && sel_expr var m
  | KeyVal _ k v => sel_expr var k && sel_expr var v
  | Fun _ body => sel_stmts var body
  end
with sel_exprs (var : bytes -> bool) es := match es with Enil => true | Econs e es => sel_expr var e && sel_exprs var es end
with sel_stmt (var : bytes -> bool) s :=
  match s with
  | SExpr es => sel_exprs var es
  | SAssign l r => sel_exprs var l && sel_exprs var r
  | SDefine _ r => sel_exprs var r
  | SIncDec e => sel_expr var e
  | SRange _ a x b => sel_exprs var a && sel_expr var x && sel_stmts var b
  | SIf i c b e => sel_stmt var i && sel_expr var c && sel_stmts var b && sel_stmt var e
  | SFor i c p b => sel_stmt var i && sel_exprs var c && sel_stmt var p && sel_stmts var b
  | SSwitch i t cs => sel_stmt var i && sel_stmt var t && sel_clauses var cs
  | SSelect cs => sel_comms var cs
  | SVar _ v => sel_exprs var v
  | SType _ | SNone => true
  | SBlock b => sel_stmts var b
  end
with sel_stmts (var : bytes -> bool) ss := match ss with Snil => true | Scons s ss => sel_stmt var s && sel_stmts var ss end
with sel_clauses (var : bytes -> bool) cs := match cs with Cnil => true | Ccons l b cs => sel_exprs var l && sel_stmts var b && sel_clauses var cs end
with sel_comms (var : bytes -> bool) cs :=
  match cs with Mnil => true | Mcons s b cs => free_of var (declared s) && sel_stmt var s && sel_stmts var b && sel_comms var cs end.

(** No use of a package variable. *)
Definition quiet (var : bytes -> bool) (us : list use) : bool := forallb (fun u => negb (var (name u))) us.
(** What xgo looks at: no use of a package variable in a case list, in a communication
    clause's statement, in the third index of a slice, as the identifier key of a composite
    literal, in [&x.f] unless x is of a known pointer type, inside the target of an
    assignment or of ++; and no package variable's name is declared in the header of an if,
    for, switch or range. *)
Fixpoint look_expr (var : bytes -> bool) (e : expr) : bool :=
  match e with
  | Id _ _ => true
  | AddrField _ x ok => ok || negb (var x)
  | Sub es => look_exprs var es
  | Slice3 es m => look_exprs var es && quiet var (go_expr [] m)
  | KeyVal f k v => (match k with Id _ x => f || negb (var x) | _ => look_expr var k end) && look_expr var v
  | Fun _ body => look_stmts var body
  end
with look_exprs (var : bytes -> bool) es := match es with Enil => true | Econs e es => look_expr var e && look_exprs var es end
with look_stmt (var : bytes -> bool) s :=
  match s with
  | SExpr es => look_exprs var es
  | SAssign l r => quiet var (filter (fun u => match what u with Read => true | _ => false end) (go_targets [] l)) && look_exprs var r
  | SDefine _ r => look_exprs var r
  | SIncDec e => match e with Id _ _ => true | _ => quiet var (go_expr [] e) end
  | SRange n a x b => free_of var n && quiet var (filter (fun u => match what u with Read => true | _ => false end) (go_targets [] a)) && look_expr var x && look_stmts var b
  | SIf i c b e => free_of var (declared i) && look_stmt var i && look_expr var c && look_stmts var b && look_stmt var e && free_of var (declared e)
  | SFor i c p b => free_of var (declared i) && free_of var (declared p) && look_stmt var i && look_exprs var c && look_stmt var p && look_stmts var b
  | SSwitch i t cs => free_of var (declared i) && free_of var (declared t) && look_stmt var i && look_stmt var t && look_clauses var cs
  | SSelect cs => look_comms var cs
  | SVar _ v => look_exprs var v
  | SType _ | SNone => true
  | SBlock b => look_stmts var b
  end
with look_stmts (var : bytes -> bool) ss := match ss with Snil => true | Scons s ss => look_stmt var s && look_stmts var ss end
with look_clauses (var : bytes -> bool) cs := match cs with Cnil => true | Ccons l b cs => quiet var (go_exprs [] l) && look_stmts var b && look_clauses var cs end
with look_comms (var : bytes -> bool) cs :=
  match cs with Mnil => true | Mcons s b cs => quiet var (filter (fun u => match what u with Read => true | _ => false end) (go_stmt [] s)) && look_stmts var b && look_comms var cs end.

(** ** Proofs *)
Scheme expr_ind' := Induction for expr Sort Prop
with exprs_ind' := Induction for exprs Sort Prop
with stmt_ind' := Induction for stmt Sort Prop
with stmts_ind' := Induction for stmts Sort Prop
with clauses_ind' := Induction for clauses Sort Prop
with comms_ind' := Induction for comms Sort Prop.
Combined Scheme syntax_ind from expr_ind', exprs_ind', stmt_ind', stmts_ind', clauses_ind', comms_ind'.

Lemma mem_In x l : mem x l = true <-> In x l.
Proof. unfold mem. rewrite existsb_exists. split; [intros (y & I & E); apply eqs_eq in E; now subst|intros I; exists x; split; auto; apply eqs_eq; reflexivity]. Qed.

Section Proofs.
  Variable var decl : bytes -> bool.
  Hypothesis var_decl : forall x, var x = true -> decl x = true.
  Hypothesis var_nonblank : forall x, var x = true -> blank x = false.

  Definition sub (G E : list bytes) : Prop := forall x, var x = true -> In x G -> In x E.
  Lemma sub_cons_names n G E : sub G E -> sub (n ++ G) (filter (fun x => negb (blank x)) n ++ E).
  Proof. intros H x V I. apply in_app_or in I as [I|I]; apply in_or_app; [left; apply filter_In; split; auto; now rewrite var_nonblank|right; auto]. Qed.
  Lemma sub_app n G E : sub G E -> sub (n ++ G) (n ++ E).
  Proof. intros H x V I. apply in_app_or in I as [I|I]; apply in_or_app; auto. Qed.
  Lemma sub_grow n G E : sub G E -> sub G (n ++ E).
  Proof. intros H x V I. apply in_or_app; auto. Qed.
  Lemma sub_free n G E : free_of var n = true -> sub G E -> sub (n ++ G) E.
  Proof. intros F H x V I. apply in_app_or in I as [I|I]; auto. unfold free_of in F. rewrite forallb_forall in F. specialize (F x I). rewrite V in F. discriminate. Qed.

  Definition fine (p : nat) (us : list use) : Prop := exists u, In u us /\ at_ u = p /\ what u = Read /\ var (name u) = true /\ global u.
  Lemma fine_l p a b : fine p a -> fine p (a ++ b). Proof. intros (u & I & H). exists u. split; auto. apply in_or_app; auto. Qed.
  Lemma fine_r p a b : fine p b -> fine p (a ++ b). Proof. intros (u & I & H). exists u. split; auto. apply in_or_app; auto. Qed.
  Lemma collect_fine E G p q x w : sub G E -> w = Read -> In p (collect var E q x) -> fine p [{| at_ := q; name := x; locals := G; what := w |}].
  Proof.
    intros S W I. unfold collect in I. destruct (blank x || mem x E) eqn:B; [easy|]. destruct (var x) eqn:V; [|easy].
    destruct I as [<-|[]]. exists {| at_ := q; name := x; locals := G; what := w |}. repeat split; auto; [now left|].
    unfold global. cbn. intros I. apply orb_false_iff in B as [_ B]. assert (mem x E = true) by (apply mem_In; auto). congruence.
  Qed.

  (** xgo's scopes only grow. *)
  Lemma grows : forall s E, exists n, fst (tr_stmt var decl E s) = n ++ E.
  Proof.
    fix IH 1. intros s E. destruct s; cbn [tr_stmt]; try (exists []; reflexivity); cbn [fst]; try (eexists; reflexivity).
    - destruct (IH s1 E) as (n1 & E1). destruct (tr_stmt var decl E s1) as [E' a]. cbn in E1. subst.
      destruct (IH s2 (n1 ++ E)) as (n2 & E2). destruct (tr_stmt var decl (n1 ++ E) s2) as [E' c]. cbn in *. subst. exists (n2 ++ n1). now rewrite app_assoc.
    - destruct (IH s1 E) as (n1 & E1). destruct (tr_stmt var decl E s1) as [E' a]. cbn in E1. subst.
      destruct (IH s2 (n1 ++ E)) as (n2 & E2). destruct (tr_stmt var decl (n1 ++ E) s2) as [E' c]. cbn in *. subst. exists (n2 ++ n1). now rewrite app_assoc.
    - destruct (IH s1 E) as (n1 & E1). destruct (tr_stmt var decl E s1) as [E' a]. cbn in E1. subst.
      destruct (IH s2 (n1 ++ E)) as (n2 & E2). destruct (tr_stmt var decl (n1 ++ E) s2) as [E' c]. cbn in *. subst. exists (n2 ++ n1). now rewrite app_assoc.
    - exists [name0]. reflexivity.
  Qed.
  Lemma grown s E G : sub G E -> sub G (fst (tr_stmt var decl E s)).
  Proof. destruct (grows s E) as (n & ->). apply sub_grow. Qed.

  Definition step (s : stmt) (G : list bytes) : list bytes :=
    match s with SDefine names _ => names ++ G | _ => G end.
  Definition step' (s : stmt) (G : list bytes) : list bytes :=
    match s with SDefine names _ | SVar names _ => names | SType n => [n] | _ => [] end ++ G.
  Lemma step_sub s E G : sub G E -> sub (step s G) (fst (tr_stmt var decl E s)).
  Proof. intros H. destruct s; try (now apply grown). cbn. now apply sub_cons_names. Qed.
  Lemma step'_sub s E G : sub G E -> sub (step' s G) (fst (tr_stmt var decl E s)).
  Proof.
    intros H. destruct s; try (now apply grown).
    - cbn. now apply sub_cons_names.
    - cbn. now apply sub_app.
    - cbn [step' tr_stmt fst]. now apply (sub_app [name0]).
  Qed.

  Ltac splits := repeat match goal with H : _ && _ = true |- _ => apply andb_true_iff in H as [? ?] end.
  Ltac ins := repeat match goal with H : In _ (_ ++ _) |- _ => apply in_app_or in H as [H|H] end.

  Ltac unf := simpl in *.
  Lemma sound :
    (forall e E G p, sel_expr var e = true -> sub G E -> In p (tr_expr var decl E e) -> fine p (go_expr G e)) /\
    (forall es E G p, sel_exprs var es = true -> sub G E -> In p (tr_exprs var decl E es) -> fine p (go_exprs G es)) /\
    (forall s E G p, sel_stmt var s = true -> sub G E -> In p (snd (tr_stmt var decl E s)) -> fine p (go_stmt G s)) /\
    (forall ss E G p, sel_stmts var ss = true -> sub G E -> In p (tr_stmts var decl E ss) -> fine p (go_stmts G ss)) /\
    (forall cs E G0 G p, sel_clauses var cs = true -> sub G E -> In p (tr_clauses var decl E cs) -> fine p (go_clauses G0 G cs)) /\
    (forall cs E G p, sel_comms var cs = true -> sub G E -> In p (tr_comms var decl E cs) -> fine p (go_comms G cs)).
  Proof.
    apply syntax_ind.
    - intros p x E G q _ S I. unf. eauto using collect_fine.
    - intros p x ok E G q _ S I. unf. destruct ok; [|easy]. eauto using collect_fine.
    - intros es IH E G p O S I. unf. eauto.
    - intros es IH m _ E G p O S I. unf. splits. apply fine_l. eauto.
    - intros f k IHk v IHv E G p O S I. unf. splits. apply in_app_or in I as [I|I]; [|apply fine_r; eauto].
      assert (K : In p (tr_expr var decl E k)).
      { destruct k; auto. destruct (mem x E || decl x); [easy|auto]. }
      assert (K' : fine p (go_expr G k)) by eauto.
      destruct k as [q x|q x ok|es|es m|f' k' v'|ps b]; try (apply fine_l; destruct f; exact K').
      destruct (mem x E || decl x) eqn:D; [easy|]. apply orb_false_iff in D as [_ D]. cbn [tr_expr] in I. unfold collect in I.
      destruct (blank x || mem x E); [easy|]. destruct (var x) eqn:V; [|easy]. apply var_decl in V. congruence.
    - intros ps b IH E G p O S I. unf. eapply IH; [auto| |exact I]. now apply sub_cons_names.
    - easy.
    - intros e IHe es IHes E G p O S I. unf. splits. apply in_app_or in I as [I|I]; [apply fine_l|apply fine_r]; eauto.
    - intros es IH E G p O S I. unf. eauto.
    - intros l _ r IH E G p O S I. unf. splits. apply fine_r. eauto.
    - intros n r IH E G p O S I. unf. eauto.
    - easy.
    - intros n a _ x IHx b IHb E G p O S I. unf. splits. apply fine_r.
      apply in_app_or in I as [I|I]; [apply fine_l; eapply IHx; [auto| |exact I]; now apply sub_grow|apply fine_r; eapply IHb; [auto| |exact I]; now apply sub_cons_names].
    - intros i IHi c IHc b IHb e IHe E G p O S I. unf. splits. fold (step i G).
      pose proof (step_sub i E G S) as S1. specialize (IHi E G p). destruct (tr_stmt var decl E i) as [E1 a]. cbn [fst snd] in *.
      specialize (IHe E1 (step i G) p). destruct (tr_stmt var decl E1 e) as [E2 c']. cbn [fst snd] in *.
      ins; [apply fine_l; eauto|apply fine_r, fine_l; eauto|apply fine_r, fine_r, fine_l; eauto|apply fine_r, fine_r, fine_r; eauto].
    - intros i IHi c IHc q IHq b IHb E G p O S I. unf. splits. fold (step i G).
      pose proof (step_sub i E G S) as S1. specialize (IHi E G p). destruct (tr_stmt var decl E i) as [E1 a]. cbn [fst snd] in *.
      pose proof (grown q E1 _ S1) as S2. specialize (IHq E1 (step i G) p). destruct (tr_stmt var decl E1 q) as [E2 c']. cbn [fst snd] in *.
      ins; [apply fine_l; eauto|apply fine_r, fine_l; eauto|apply fine_r, fine_r, fine_l; eauto|apply fine_r, fine_r, fine_r; eauto].
    - intros i IHi t IHt cs IHc E G p O S I. unf. splits. fold (step i G). fold (step t (step i G)).
      pose proof (step_sub i E G S) as S1. specialize (IHi E G p). destruct (tr_stmt var decl E i) as [E1 a]. cbn [fst snd] in *.
      pose proof (step_sub t E1 _ S1) as S2. specialize (IHt E1 (step i G) p). destruct (tr_stmt var decl E1 t) as [E2 c']. cbn [fst snd] in *.
      ins; [apply fine_l; eauto|apply fine_r, fine_l; eauto|apply fine_r, fine_r; eauto].
    - intros cs IH E G p O S I. unf. eauto.
    - intros n v IH E G p O S I. unf. eauto.
    - easy.
    - intros b IH E G p O S I. unf. eauto.
    - easy.
    - easy.
    - intros s IHs ss IHss E G p O S I. unf. splits. fold (step' s G).
      pose proof (step'_sub s E G S) as S1. specialize (IHs E G p). destruct (tr_stmt var decl E s) as [E1 a]. cbn [fst snd] in *.
      ins; [apply fine_l; eauto|apply fine_r; eauto].
    - easy.
    - intros l _ b IHb cs IHc E G0 G p O S I. unf. splits. apply fine_r. ins; [apply fine_l|apply fine_r]; eauto.
    - easy.
    - intros s _ b IHb cs IHc E G p O S I. unf. splits. apply fine_r.
      ins; [apply fine_l; eapply IHb; [auto| |exact I]|apply fine_r; eauto]. destruct s; auto. cbn [declared] in *. now apply sub_free.
  Qed.

  (** What is used does not depend on the names in scope. *)
  Definition key (u : use) := (at_ u, name u, what u).
  Lemma same_uses :
    (forall e G G', map key (go_expr G e) = map key (go_expr G' e)) /\
    (forall es G G', map key (go_exprs G es) = map key (go_exprs G' es) /\ map key (go_targets G es) = map key (go_targets G' es)) /\
    (forall s G G', map key (go_stmt G s) = map key (go_stmt G' s)) /\
    (forall ss G G', map key (go_stmts G ss) = map key (go_stmts G' ss)) /\
    (forall cs G G2 G' G2', map key (go_clauses G G2 cs) = map key (go_clauses G' G2' cs)) /\
    (forall cs G G', map key (go_comms G cs) = map key (go_comms G' cs)).
  Proof.
    apply syntax_ind; intros; try (match goal with |- map key (go_expr _ (KeyVal _ _ _)) = _ => fail 1 | _ => idtac end; simpl);
      rewrite ?map_app; try reflexivity;
      try split; rewrite ?map_app;
      repeat match goal with |- _ ++ _ = _ ++ _ => f_equal end; auto;
      try (match goal with |- map key (target _ ?e _) = _ => destruct e; simpl; auto; apply H end);
      repeat match goal with H : forall G G' : list bytes, _ /\ _ |- _ => first [apply H | clear H] end.
    change (go_expr G (KeyVal field key0 value)) with ((match field, key0 with true, Id _ _ => [] | _, _ => go_expr G key0 end) ++ go_expr G value).
    change (go_expr G' (KeyVal field key0 value)) with ((match field, key0 with true, Id _ _ => [] | _, _ => go_expr G' key0 end) ++ go_expr G' value).
    rewrite !map_app. f_equal; auto. destruct field; auto. destruct key0; auto.
  Qed.
  Lemma quiet_key a b : map key a = map key b -> quiet var a = quiet var b.
  Proof.
    revert b. induction a as [|x a IH]; intros [|y b] E; try discriminate; auto. cbn in *. injection E as _ E1 _ E2. rewrite E1. f_equal. now apply IH.
  Qed.
  Definition reads (us : list use) := filter (fun u => match what u with Read => true | _ => false end) us.
  Lemma reads_key a b : map key a = map key b -> map key (reads a) = map key (reads b).
  Proof.
    revert b. induction a as [|x a IH]; intros [|y b] E; try discriminate; auto. cbn in *. injection E as E0 E1 E3 E2. rewrite E3. destruct (what y) eqn:Y; cbn; auto. f_equal; [unfold key; congruence|now apply IH].
  Qed.
  Lemma quiet_no us u : quiet var us = true -> In u us -> var (name u) = true -> False.
  Proof. unfold quiet. rewrite forallb_forall. intros H I V. specialize (H u I). rewrite V in H. discriminate. Qed.

  Definition sup (E G : list bytes) : Prop := forall x, var x = true -> In x E -> In x G.
  Lemma sup_names n E G : sup E G -> sup (filter (fun x => negb (blank x)) n ++ E) (n ++ G).
  Proof. intros H x V I. apply in_app_or in I as [I|I]; apply in_or_app; auto. apply filter_In in I as [I _]. auto. Qed.
  Lemma sup_app n E G : sup E G -> sup (n ++ E) (n ++ G).
  Proof. intros H x V I. apply in_app_or in I as [I|I]; apply in_or_app; auto. Qed.
  Lemma sup_grow n E G : sup E G -> sup E (n ++ G).
  Proof. intros H x V I. apply in_or_app; auto. Qed.
  Lemma sup_free n E G : free_of var n = true -> sup E G -> sup (n ++ E) G.
  Proof. intros F H x V I. apply in_app_or in I as [I|I]; auto. unfold free_of in F. rewrite forallb_forall in F. specialize (F x I). rewrite V in F. discriminate. Qed.
  Lemma free_filter n : free_of var n = true -> free_of var (filter (fun x => negb (blank x)) n) = true.
  Proof. unfold free_of. rewrite !forallb_forall. intros H x I. apply filter_In in I as [I _]. auto. Qed.

  (** The names a statement leaves behind in xgo's scope. *)
  Lemma leaves : forall s E G, look_stmt var s = true -> sup E G -> sup (fst (tr_stmt var decl E s)) (declared s ++ G).
  Proof.
    fix IH 1. intros s E G L H. destruct s; cbn [tr_stmt declared fst]; try (now apply sup_grow).
    - now apply sup_names.
    - now apply sup_names.
    - simpl in L. splits. pose proof (IH s1 E G ltac:(auto) H) as L1. destruct (tr_stmt var decl E s1) as [E1 a]. cbn [fst] in L1.
      assert (S1 : sup E1 G) by (intros x V I; specialize (L1 x V I); apply in_app_or in L1 as [L1|L1]; auto; exfalso; match goal with F : free_of var (declared s1) = true |- _ => unfold free_of in F; rewrite forallb_forall in F; specialize (F x L1); rewrite V in F; discriminate end).
      pose proof (IH s2 E1 G ltac:(auto) S1) as L2. destruct (tr_stmt var decl E1 s2) as [E2 c]. cbn [fst] in *. simpl.
      intros x V I; specialize (L2 x V I); apply in_app_or in L2 as [L2|L2]; auto; exfalso; match goal with F : free_of var (declared s2) = true |- _ => unfold free_of in F; rewrite forallb_forall in F; specialize (F x L2); rewrite V in F; discriminate end.
    - simpl in L. splits. pose proof (IH s1 E G ltac:(auto) H) as L1. destruct (tr_stmt var decl E s1) as [E1 a]. cbn [fst] in L1.
      assert (S1 : sup E1 G) by (intros x V I; specialize (L1 x V I); apply in_app_or in L1 as [L1|L1]; auto; exfalso; match goal with F : free_of var (declared s1) = true |- _ => unfold free_of in F; rewrite forallb_forall in F; specialize (F x L1); rewrite V in F; discriminate end).
      pose proof (IH s2 E1 G ltac:(auto) S1) as L2. destruct (tr_stmt var decl E1 s2) as [E2 c]. cbn [fst] in *. simpl.
      intros x V I; specialize (L2 x V I); apply in_app_or in L2 as [L2|L2]; auto; exfalso; match goal with F : free_of var (declared s2) = true |- _ => unfold free_of in F; rewrite forallb_forall in F; specialize (F x L2); rewrite V in F; discriminate end.
    - simpl in L. splits. pose proof (IH s1 E G ltac:(auto) H) as L1. destruct (tr_stmt var decl E s1) as [E1 a]. cbn [fst] in L1.
      assert (S1 : sup E1 G) by (intros x V I; specialize (L1 x V I); apply in_app_or in L1 as [L1|L1]; auto; exfalso; match goal with F : free_of var (declared s1) = true |- _ => unfold free_of in F; rewrite forallb_forall in F; specialize (F x L1); rewrite V in F; discriminate end).
      pose proof (IH s2 E1 G ltac:(auto) S1) as L2. destruct (tr_stmt var decl E1 s2) as [E2 c]. cbn [fst] in *. simpl.
      intros x V I; specialize (L2 x V I); apply in_app_or in L2 as [L2|L2]; auto; exfalso; match goal with F : free_of var (declared s2) = true |- _ => unfold free_of in F; rewrite forallb_forall in F; specialize (F x L2); rewrite V in F; discriminate end.
    - now apply sup_app.
    - now apply (sup_app [name0]).
  Qed.
  Lemma leaves_free s E G : look_stmt var s = true -> free_of var (declared s) = true -> sup E G -> sup (fst (tr_stmt var decl E s)) G.
  Proof.
    intros L F H x V I. pose proof (leaves s E G L H x V I) as L2. apply in_app_or in L2 as [L2|L2]; auto.
    unfold free_of in F. rewrite forallb_forall in F. specialize (F x L2). rewrite V in F. discriminate.
  Qed.
  Lemma sup_step s E G : sup E G -> sup E (step s G).
  Proof. intros H. destruct s; auto. now apply sup_grow. Qed.

  Definition wanted (u : use) : Prop := what u = Read /\ var (name u) = true /\ global u.
  Lemma collect_all E G q x u : sup E G -> In u [{| at_ := q; name := x; locals := G; what := Read |}] -> wanted u -> In (at_ u) (collect var E q x).
  Proof.
    intros S [<-|[]] (_ & V & N). unfold global in N. cbn in *. unfold collect. rewrite (var_nonblank _ V), V. cbn.
    destruct (mem x E) eqn:M; [|now left]. apply mem_In in M. exfalso. apply N. auto.
  Qed.
  Lemma targets_none l G u : quiet var (reads (go_targets [] l)) = true -> In u (go_targets G l) -> wanted u -> False.
  Proof.
    intros Q I (W & V & _). rewrite (quiet_key _ (reads (go_targets G l))) in Q by (apply reads_key; apply same_uses).
    apply (quiet_no _ u Q); auto. unfold reads. apply filter_In. split; auto. now rewrite W.
  Qed.
  Lemma expr_none e G u : quiet var (go_expr [] e) = true -> In u (go_expr G e) -> wanted u -> False.
  Proof. intros Q I (W & V & _). rewrite (quiet_key _ (go_expr G e)) in Q by apply same_uses. eapply quiet_no; eauto. Qed.
  Lemma exprs_none e G u : quiet var (go_exprs [] e) = true -> In u (go_exprs G e) -> wanted u -> False.
  Proof. intros Q I (W & V & _). rewrite (quiet_key _ (go_exprs G e)) in Q by apply same_uses. eapply quiet_no; eauto. Qed.
  Lemma stmt_none s G u : quiet var (reads (go_stmt [] s)) = true -> In u (go_stmt G s) -> wanted u -> False.
  Proof.
    intros Q I (W & V & _). rewrite (quiet_key _ (reads (go_stmt G s))) in Q by (apply reads_key; apply same_uses).
    apply (quiet_no _ u Q); auto. unfold reads. apply filter_In. split; auto. now rewrite W.
  Qed.
  Ltac outs := repeat match goal with |- In _ (_ ++ _) => apply in_or_app end.

  Lemma complete :
    (forall e E G u, look_expr var e = true -> sup E G -> In u (go_expr G e) -> wanted u -> In (at_ u) (tr_expr var decl E e)) /\
    (forall es E G u, look_exprs var es = true -> sup E G -> In u (go_exprs G es) -> wanted u -> In (at_ u) (tr_exprs var decl E es)) /\
    (forall s E G u, look_stmt var s = true -> sup E G -> In u (go_stmt G s) -> wanted u -> In (at_ u) (snd (tr_stmt var decl E s))) /\
    (forall ss E G u, look_stmts var ss = true -> sup E G -> In u (go_stmts G ss) -> wanted u -> In (at_ u) (tr_stmts var decl E ss)) /\
    (forall cs E G0 G u, look_clauses var cs = true -> sup E G -> In u (go_clauses G0 G cs) -> wanted u -> In (at_ u) (tr_clauses var decl E cs)) /\
    (forall cs E G u, look_comms var cs = true -> sup E G -> In u (go_comms G cs) -> wanted u -> In (at_ u) (tr_comms var decl E cs)).
  Proof.
    apply syntax_ind.
    - intros p x E G u _ S I W. simpl in *. eauto using collect_all.
    - intros p x ok E G u L S I W. simpl in L |- *. destruct ok; [eapply collect_all; eauto|].
      destruct I as [<-|[]]. destruct W as (_ & V & _). cbn in V. rewrite V in L. discriminate.
    - intros es IH E G u L S I W. simpl in *. eauto.
    - intros es IH m _ E G u L S I W. simpl in *. splits. ins; [eauto|exfalso; eapply expr_none; eauto].
    - intros f k IHk v IHv E G u L S I W. simpl in L, I |- *. splits. apply in_or_app. apply in_app_or in I as [I|I]; [left|right; eauto].
      destruct k as [q x|q x ok|es|es m|f' k' v'|ps b]; try (destruct f; eapply IHk; eauto; fail).
      destruct f; [easy|]. destruct I as [<-|[]]. destruct W as (_ & V & _). cbn in V, H. rewrite V in H. discriminate.
    - intros ps b IH E G u L S I W. simpl in *. eapply IH; [auto| |exact I|auto]. now apply sup_names.
    - easy.
    - intros e IHe es IHes E G u L S I W. simpl in *. splits. apply in_or_app. ins; [left|right]; eauto.
    - intros es IH E G u L S I W. simpl in *. eauto.
    - intros l _ r IH E G u L S I W. simpl in *. splits. ins; [exfalso; eapply targets_none; eauto|eauto].
    - intros n r IH E G u L S I W. simpl in *. eauto.
    - intros e _ E G u L S I W. simpl in *. exfalso. destruct e; try (eapply expr_none; eauto; fail). simpl in I. destruct I as [<-|[]]. destruct W as (W & _). discriminate.
    - intros n a _ x IHx b IHb E G u L S I W. simpl in *. splits. ins; [exfalso; eapply targets_none; eauto| |]; apply in_or_app.
      + left. eapply IHx; [auto| |exact I|auto]. apply sup_free; auto using free_filter.
      + right. eapply IHb; [auto| |exact I|auto]. now apply sup_names.
    - intros i IHi c IHc b IHb e IHe E G u L S I W. simpl in *. splits. fold (step i G) in I.
      pose proof (leaves_free i E G ltac:(auto) ltac:(auto) S) as S1. apply (sup_step i) in S1.
      specialize (IHi E G u). destruct (tr_stmt var decl E i) as [E1 a]. cbn [fst snd] in *.
      specialize (IHe E1 (step i G) u). destruct (tr_stmt var decl E1 e) as [E2 c']. cbn [fst snd] in *.
      rewrite !in_app_iff. ins; eauto 6.
    - intros i IHi c IHc q IHq b IHb E G u L S I W. simpl in *. splits. fold (step i G) in I.
      pose proof (leaves_free i E G ltac:(auto) ltac:(auto) S) as S1. apply (sup_step i) in S1.
      specialize (IHi E G u). destruct (tr_stmt var decl E i) as [E1 a]. cbn [fst snd] in *.
      pose proof (leaves_free q E1 (step i G) ltac:(auto) ltac:(auto) S1) as S2.
      specialize (IHq E1 (step i G) u). destruct (tr_stmt var decl E1 q) as [E2 c']. cbn [fst snd] in *.
      rewrite !in_app_iff. ins; eauto 6.
    - intros i IHi t IHt cs IHc E G u L S I W. simpl in *. splits. fold (step i G) in I. fold (step t (step i G)) in I.
      pose proof (leaves_free i E G ltac:(auto) ltac:(auto) S) as S1. apply (sup_step i) in S1.
      specialize (IHi E G u). destruct (tr_stmt var decl E i) as [E1 a]. cbn [fst snd] in *.
      pose proof (leaves_free t E1 (step i G) ltac:(auto) ltac:(auto) S1) as S2. apply (sup_step t) in S2.
      specialize (IHt E1 (step i G) u). destruct (tr_stmt var decl E1 t) as [E2 c']. cbn [fst snd] in *.
      rewrite !in_app_iff. ins; eauto 6.
    - intros cs IH E G u L S I W. simpl in *. eauto.
    - intros n v IH E G u L S I W. simpl in *. eauto.
    - easy.
    - intros b IH E G u L S I W. simpl in *. eauto.
    - easy.
    - easy.
    - intros s IHs ss IHss E G u L S I W. simpl in *. splits. fold (step' s G) in I.
      assert (S1 : sup (fst (tr_stmt var decl E s)) (step' s G)).
      { intros x V J. pose proof (leaves s E G ltac:(auto) S x V J) as K. unfold step'. destruct s; auto.
        simpl in K. simpl in *. splits. apply in_app_or in K as [K|K]; auto. exfalso.
        match goal with F : free_of var names = true |- _ => unfold free_of in F; rewrite forallb_forall in F; specialize (F x K); rewrite V in F; discriminate end. }
      specialize (IHs E G u). destruct (tr_stmt var decl E s) as [E1 a]. cbn [fst snd] in *.
      apply in_or_app. ins; eauto.
    - easy.
    - intros l _ b IHb cs IHc E G0 G u L S I W. simpl in *. splits. ins; [exfalso; eapply exprs_none; eauto| |]; apply in_or_app; eauto.
    - easy.
    - intros s _ b IHb cs IHc E G u L S I W. simpl in *. splits. ins; [exfalso; eapply stmt_none; eauto| |]; apply in_or_app; [left|right; eauto].
      eapply IHb; [auto| |exact I|auto]. destruct s; auto. now apply sup_grow.
  Qed.
End Proofs.

Lemma unique_at (us : list use) u v : NoDup (map at_ us) -> In u us -> In v us -> at_ u = at_ v -> u = v.
Proof.
  induction us as [|w us IH]; intros N I J E; [easy|]. inversion_clear N as [|? ? N1 N2]. destruct I as [<-|I], J as [<-|J]; auto; exfalso; apply N1; [rewrite E|rewrite <- E]; now apply in_map.
Qed.

(** ** C36: only references to the package variable are rewritten *)
(** Missing: [case v := <-c] and type parameters that reuse the name of a package variable. *)
Theorem C36_only_package_variables_partial : forall var decl : bytes -> bool,
  (forall x, var x = true -> decl x = true) -> var [] = false -> var #"_" = false ->
  forall tparams params body, free_of var tparams = true -> sel_stmts var body = true ->
  NoDup (map at_ (go_func tparams params body)) ->
  forall p, In p (tr_func var decl tparams params body) ->
  (exists u, In u (go_func tparams params body) /\ at_ u = p) /\
  (forall u, In u (go_func tparams params body) -> at_ u = p -> what u = Read /\ var (name u) = true /\ global u).
Proof.
  intros var decl VD V0 V1 tp ps body FT SB ND p I.
  assert (NB : forall x, var x = true -> blank x = false).
  { intros x V. destruct x as [|c x]; [congruence|]. unfold blank. destruct (eqs (c :: x) #"_") eqn:Q; auto. apply eqs_eq in Q. congruence. }
  assert (F : fine var p (go_func tp ps body)).
  { unfold go_func. eapply (proj1 (proj2 (proj2 (proj2 (sound var decl VD NB))))); eauto.
    intros x V J. apply in_app_or in J as [J|J].
    - apply filter_In. split; auto. now rewrite NB.
    - unfold free_of in FT. rewrite forallb_forall in FT. specialize (FT x J). rewrite V in FT. discriminate. }
  destruct F as (u & U & P & W & V & G). split; [eauto|]. intros w J P'.
  assert (w = u) by (eapply unique_at; eauto; congruence). subst w. auto.
Qed.
Print Assumptions C36_only_package_variables_partial.

(** The names of struct fields in composite literals, parameters, and everything below count. *)
Definition v_of (x : bytes) : bool := eqs x #"V".
Definition ids (l : list (nat * bytes)) : exprs := fold_right (fun '(p, x) es => Econs (Id p x) es) Enil l.
(** func f(a int) { V := V; for V := range a { use(V) }; func() { use(V) }() } ... V{V: V} *)
Example C36_case :
  let body := Scons (SExpr (ids [(1, #"V")])) (Scons (SDefine [#"V"] (ids [(2, #"V")]))
    (Scons (SExpr (Econs (Fun [#"a"] (Scons (SExpr (ids [(3, #"V"); (4, #"a")])) Snil)) Enil)) Snil)) in
  sel_stmts v_of body = true /\ NoDup (map at_ (go_func [] [#"a"] body)) /\ tr_func v_of v_of [] [#"a"] body = [1; 2].
Proof. vm_compute. repeat split. repeat constructor; cbn; intuition discriminate. Qed.

(** select { case V := <-c: use(V) }, and func f[V any]() { use(V) }. *)
Theorem C36_only_package_variables_refuted :
  (exists body, NoDup (map at_ (go_func [] [] body)) /\
     exists p u, In p (tr_func v_of v_of [] [] body) /\ In u (go_func [] [] body) /\ at_ u = p /\ ~ global u) /\
  (exists tparams body, NoDup (map at_ (go_func tparams [] body)) /\
     exists p u, In p (tr_func v_of v_of tparams [] body) /\ In u (go_func tparams [] body) /\ at_ u = p /\ ~ global u).
Proof.
  split.
  - exists (Scons (SSelect (Mcons (SDefine [#"V"] (ids [(1, #"c")])) (Scons (SExpr (ids [(2, #"V")])) Snil) Mnil)) Snil).
    split; [vm_compute; repeat constructor; cbn; intuition discriminate|]. exists 2. eexists. split; [vm_compute; left; reflexivity|].
    split; [vm_compute; right; left; reflexivity|]. split; [reflexivity|]. unfold global. cbn. tauto.
  - exists [#"V"], (Scons (SExpr (ids [(2, #"V")])) Snil).
    split; [vm_compute; repeat constructor; cbn; intuition discriminate|]. exists 2. eexists. split; [vm_compute; left; reflexivity|].
    split; [vm_compute; left; reflexivity|]. split; [reflexivity|]. unfold global. cbn. tauto.
Qed.
Print Assumptions C36_only_package_variables_refuted.

(** ** C56: every read of a package variable is rewritten *)
Theorem C56_every_read_partial : forall var decl : bytes -> bool,
  (forall x, var x = true -> decl x = true) -> var [] = false -> var #"_" = false ->
  forall tparams params body, look_stmts var body = true ->
  forall u, In u (go_func tparams params body) -> what u = Read -> var (name u) = true -> global u ->
  In (at_ u) (tr_func var decl tparams params body).
Proof.
  intros var decl VD V0 V1 tp ps body L u I W V G.
  assert (NB : forall x, var x = true -> blank x = false).
  { intros x V'. destruct x as [|c x]; [congruence|]. unfold blank. destruct (eqs (c :: x) #"_") eqn:Q; auto. apply eqs_eq in Q. congruence. }
  unfold tr_func. eapply (proj1 (proj2 (proj2 (proj2 (complete var decl NB))))); [exact L| |exact I|repeat split; auto].
  intros x V' J. apply filter_In in J as [J _]. apply in_or_app. auto.
Qed.
Print Assumptions C56_every_read_partial.

Example C56_case :
  let body := Scons (SIf (SDefine [#"a"] (ids [(1, #"V")])) (Id 2 #"a") (Scons (SDefine [#"V"] (ids [(3, #"V")])) (Scons (SExpr (ids [(4, #"V")])) Snil)) SNone)
              (Scons (SAssign (ids [(5, #"V")]) (ids [(6, #"V")])) Snil) in
  look_stmts v_of body = true /\ tr_func v_of v_of [] [] body = [1; 3; 6].
Proof. vm_compute. auto. Qed.

(** Reads that are missed: in a case list, in the statement of a communication clause, after
    an if whose header declares the name, the operand of [for V := range V], the third index of
    a slice, a key of a map literal, an index inside an assignment target. *)
Definition missed (body : stmts) : Prop :=
  exists u, In u (go_func [] [] body) /\ what u = Read /\ v_of (name u) = true /\ global u /\
  ~ In (at_ u) (tr_func v_of v_of [] [] body).
Theorem C56_every_read_refuted :
  missed (Scons (SSwitch SNone (SExpr (ids [(1, #"x")])) (Ccons (ids [(2, #"V")]) Snil Cnil)) Snil) /\
  missed (Scons (SSelect (Mcons (SExpr (ids [(1, #"V")])) Snil Mnil)) Snil) /\
  missed (Scons (SIf (SDefine [#"V"] (ids [(1, #"x")])) (Id 2 #"V") Snil SNone) (Scons (SExpr (ids [(3, #"V")])) Snil)) /\
  missed (Scons (SRange [#"V"] Enil (Id 1 #"V") Snil) Snil) /\
  missed (Scons (SExpr (Econs (Slice3 (ids [(1, #"x")]) (Id 2 #"V")) Enil)) Snil) /\
  missed (Scons (SExpr (Econs (Sub (Econs (KeyVal false (Id 1 #"V") (Id 2 #"x")) Enil)) Enil)) Snil) /\
  missed (Scons (SAssign (Econs (Sub (ids [(1, #"m"); (2, #"V")])) Enil) (ids [(3, #"x")])) Snil).
Proof.
  assert (M : forall n body u, nth_error (go_func [] [] body) n = Some u -> what u = Read -> v_of (name u) = true -> mem (name u) (locals u) = false ->
    existsb (Nat.eqb (at_ u)) (tr_func v_of v_of [] [] body) = false -> missed body).
  { intros n body u N W V L T. exists u. repeat split; auto.
    - eapply nth_error_In; eauto.
    - intros I. apply mem_In in I. congruence.
    - intros I. assert (existsb (Nat.eqb (at_ u)) (tr_func v_of v_of [] [] body) = true) by (apply existsb_exists; exists (at_ u); split; auto; apply Nat.eqb_refl). congruence. }
  repeat split; [eapply (M 1)|eapply (M 0)|eapply (M 2)|eapply (M 0)|eapply (M 1)|eapply (M 0)|eapply (M 1)]; vm_compute; reflexivity.
Qed.
Print Assumptions C56_every_read_refuted.
