(** * C79-C81: which function mock.Patch names (M_Resolve) *)
From Coq Require Import Ascii String List Arith Bool Lia.
From Verif Require Import M_Str P_Str M_Resolve P_Resolve.
Import ListNotations.
Open Scope nat_scope.
Open Scope list_scope.

(** ** Specification: what an expression of a Go program denotes.
    [lim = false]: the rules of Go, for the forms of expressions of M_Resolve.  [lim = true]: the part of these rules
    that xgo is shown to follow; each rule that xgo does not follow has the premise [lim = false], and the others may have
    a premise for [lim = true]. *)
Definition imps := list (bytes * bytes).
(** A local variable: x := e; one of x, y := e; var x t; var x = e; anything else. *)
Inductive local := LDef (e : expr) | LTuple (e : expr) (i : nat) | LTyped (t : expr) | LVal (e : expr) | LName.
(** The locals visible at a point: one group for each declaration, innermost and newest first. *)
Definition env := list (list (bytes * local)).
(** The variable x names, and what its declaration sees. *)
Fixpoint lookup (v : env) (x : bytes) : option (local * env) :=
  match v with [] => None | g :: r => match assoc g x with Some l => Some (l, r) | None => lookup r x end end.
Fixpoint tuple (ns : list bytes) (e : expr) (i : nat) : list (bytes * local) :=
  match ns with [] => [] | n :: r => (n, LTuple e i) :: tuple r e (S i) end.
Definition group_of (d : ldecl) : list (bytes * local) :=
  filter (fun b => negb (blank (fst b)))
    match d with
    | DDefine ns rhs => if length ns =? length rhs then combine ns (map LDef rhs) else tuple ns (hd EOther rhs) 0
    | DVar ns (Some t) _ => map (fun n => (n, LTyped t)) ns
    | DVar ns None vs => if length ns =? length vs then combine ns (map LVal vs) else map (fun n => (n, LName)) ns
    | DType n _ => [(n, LName)]
    end.
Definition history (ctx : list (list ldecl)) : list ldecl := flat_map (@rev ldecl) ctx.
Definition env_of (ctx : list (list ldecl)) : env := map group_of (history ctx).

(** Types: a defined type, a pointer, a function type and a struct type with the place where their parts are to be
    read, any other. *)
Inductive gty :=
| GNamed (p x : bytes)
| GPtr (g : gty)
| GFunc (p : bytes) (I : imps) (v : env) (rs : list (list bytes * expr))
| GStruct (fs : list (list bytes * expr))
| GOther.
Definition named (g : gty) : Prop := match g with GNamed _ _ => True | _ => False end.
(** g is the defined type p.x or a pointer to it. *)
Definition of_named (g : gty) (p x : bytes) : Prop := g = GNamed p x \/ g = GPtr (GNamed p x).

(** The identifiers of an expression. *)
Fixpoint names (e : expr) : list bytes :=
  match e with
  | EId x => [x]
  | ESel e _ | EParen e | EStar e | EAddr e | EComp e | EArr e | EChan e => names e
  | ECall f args => names f ++ flat_map names args
  | EIndex e i => names e ++ names i
  | EStruct fs => flat_map (fun f => names (snd f)) fs
  | EFunc rs => flat_map (fun f => names (snd f)) rs
  | EFuncLit rs => flat_map (fun f => names (snd f)) rs
  | EMap k v => names k ++ names v
  | EIface | ELit | EOther => []
  end.
Definition opt_names (o : option expr) : list bytes := match o with Some e => names e | None => [] end.
Definition decl_names (d : decl) : list bytes := opt_names (typ d) ++ opt_names (value d) ++ flat_map (fun r => names (snd r)) (results d).

(** The name of the type in T, *T, p.T, *p.T and, with type arguments, T[A]: an embedded field has that name. *)
Fixpoint type_name (t : expr) : bytes :=
  match t with EId x => x | ESel _ x => x | EStar t => type_name t | EIndex t _ => type_name t | _ => [] end.
Definition field_names (fs : list (list bytes * expr)) : list bytes :=
  flat_map (fun f => match fst f with [] => [type_name (snd f)] | ns => ns end) fs.
Definition field_type (fs : list (list bytes * expr)) (x : bytes) (t : expr) : Prop :=
  exists ns, In (ns, t) fs /\ (In x ns \/ ns = [] /\ type_name t = x).
(** No type arguments. *)
Definition plain_embedded (t : expr) : Prop := exists p x, t = EId x \/ t = ESel p x \/ t = EStar (EId x) \/ t = EStar (ESel p x).
Definition simple_fields (fs : list (list bytes * expr)) : Prop := forall ns t, In (ns, t) fs -> length ns <= 1 /\ (ns = [] -> plain_embedded t).
Definition one_result (rs : list (list bytes * expr)) (t : expr) : Prop := exists ns, rs = [(ns, t)] /\ length ns <= 1.
(** The i-th result. *)
Definition nth_result (rs : list (list bytes * expr)) (i : nat) (t : expr) : Prop :=
  nth_error (flat_map (fun r => match fst r with [] => [snd r] | ns => map (fun _ => snd r) ns end) rs) i = Some t.
Definition go_predeclared : list bytes := #"error" :: #"any" :: #"rune" :: #"uintptr" :: basic_names.

Section Go.
Variable W : world.
(** The package and the imports of the file with the call. *)
Variables (hp : bytes) (hI : imps).
(** The files of a package: each with its imports. *)
Definition file_of (q : bytes) (J : imps) : Prop := (exists y d, W q y = Some d /\ J = imports d) \/ (q = hp /\ J = hI).
(** All files of the package give the names in the declaration d the meaning they have in the file of d. *)
Definition steady (q : bytes) (d : decl) : Prop := forall J, file_of q J -> forall a, In a (decl_names d) -> assoc J a = assoc (imports d) a.
Definition free (p : bytes) (I : imps) (v : env) (x : bytes) : Prop := lookup v x = None /\ W p x = None /\ assoc I x = None.

Variable lim : bool.
(** e denotes the declaration d, x of package q. *)
Inductive pden (p : bytes) (I : imps) (v : env) : expr -> bytes -> bytes -> decl -> Prop :=
| p_here x d : lookup v x = None -> W p x = Some d -> pden p I v (EId x) p x d
| p_import a q x d : lookup v a = None -> W p a = None -> assoc I a = Some q -> W q x = Some d -> pden p I v (ESel (EId a) x) q x d
| p_paren e q x d : pden p I v e q x d -> pden p I v (EParen e) q x d.
(** e denotes the type g. *)
Inductive tden : bytes -> imps -> env -> expr -> gty -> Prop :=
| t_basic p I v x : free p I v x -> memb x (if lim then basic_names else go_predeclared) = true -> tden p I v (EId x) GOther
| t_named p I v e q x d te g : pden p I v e q x d -> kind d = KType -> alias d = false -> typ d = Some te ->
    (lim = true -> steady q d /\ ~ named g) -> tden q (imports d) [] te g -> tden p I v e (GNamed q x)
| t_named_full p I v e q x d : lim = false -> pden p I v e q x d -> kind d = KType -> alias d = false -> tden p I v e (GNamed q x)
| t_alias p I v e q x d te g : pden p I v e q x d -> kind d = KType -> alias d = true -> typ d = Some te ->
    (lim = true -> steady q d /\ named g) -> tden q (imports d) [] te g -> tden p I v e g
| t_inst p I v e i q x q0 x0 d g : pden p I v e q0 x0 d -> tden p I v e (GNamed q x) -> tden p I v i g -> tden p I v (EIndex e i) (GNamed q x)
| t_star p I v e g : tden p I v e g -> tden p I v (EStar e) (GPtr g)
| t_paren p I v e g : tden p I v e g -> tden p I v (EParen e) g
| t_struct p I v fs : tden p I v (EStruct fs) (GStruct fs)
| t_func p I v rs : tden p I v (EFunc rs) (GFunc p I v rs)
| t_arr p I v e g : tden p I v e g -> tden p I v (EArr e) GOther
| t_arr_full p I v e : lim = false -> tden p I v (EArr e) GOther
| t_map p I v k e : tden p I v (EMap k e) GOther
| t_iface p I v : tden p I v EIface GOther
| t_chan p I v e : tden p I v (EChan e) GOther.
(** e is a value of type g. *)
Inductive vden : bytes -> imps -> env -> expr -> gty -> Prop :=
| v_def p I v x e r g : lookup v x = Some (LDef e, r) -> vden p I r e g -> vden p I v (EId x) g
| v_tuple p I v x f args i r q J v' rs t g : lim = false -> lookup v x = Some (LTuple (ECall f args) i, r) ->
    vden p I r f (GFunc q J v' rs) -> nth_result rs i t -> tden q J v' t g -> vden p I v (EId x) g
| v_typed p I v x t r g : lim = false -> lookup v x = Some (LTyped t, r) -> tden p I r t g -> vden p I v (EId x) g
| v_val p I v x e r g : lim = false -> lookup v x = Some (LVal e, r) -> vden p I r e g -> vden p I v (EId x) g
| v_var p I v e q x d t g : pden p I v e q x d -> kind d = KVar -> typ d = Some t -> (lim = true -> steady q d) ->
    tden q (imports d) [] t g -> vden p I v e g
| v_value p I v e q x d a g : pden p I v e q x d -> kind d = KVar -> typ d = None -> value d = Some a -> (lim = true -> steady q d) ->
    vden q (imports d) [] a g -> vden p I v e g
| v_fun p I v e q x d : pden p I v e q x d -> kind d = KFunc -> (lim = true -> steady q d) -> vden p I v e (GFunc q (imports d) [] (results d))
| v_inst p I v e i q x d : pden p I v e q x d -> kind d = KFunc -> (lim = true -> steady q d) -> vden p I v (EIndex e i) (GFunc q (imports d) [] (results d))
| v_lit p I v : vden p I v ELit GOther
| v_funclit p I v rs : vden p I v (EFuncLit rs) (GFunc p I v rs)
| v_paren p I v e g : vden p I v e g -> vden p I v (EParen e) g
| v_addr p I v e g : vden p I v e g -> vden p I v (EAddr e) (GPtr g)
| v_star p I v e g : lim = false -> vden p I v e (GPtr g) -> vden p I v (EStar e) g
| v_comp p I v t g : tden p I v t g -> vden p I v (EComp t) g
| v_new p I v t g : free p I v #"new" -> tden p I v t g -> vden p I v (ECall (EId #"new") [t]) (GPtr g)
| v_make p I v t args g : free p I v #"make" -> tden p I v t g -> vden p I v (ECall (EId #"make") (t :: args)) g
| v_conv p I v t a g : tden p I v t g -> vden p I v (ECall t [a]) g
| v_call p I v f args q J v' rs t g : vden p I v f (GFunc q J v' rs) -> one_result rs t -> tden q J v' t g -> vden p I v (ECall f args) g
| v_method p I v e m args q x d rs t g g' : lim = false -> vden p I v e g -> of_named g q x -> W q x = Some d -> assoc (methods d) m = Some rs ->
    one_result rs t -> tden q (imports d) [] t g' -> vden p I v (ECall (ESel e m) args) g'
| v_field p I v e f q x d fs t g g' : vden p I v e g -> of_named g q x -> W q x = Some d -> assoc (methods d) f = None ->
    typ d = Some (EStruct fs) -> field_type fs f t -> (lim = true -> NoDup (field_names fs) /\ simple_fields fs) ->
    tden q (imports d) [] t g' -> vden p I v (ESel e f) g'.
(** The method m of the values of type g is that of q.x: its own, or one of an embedded field. *)
Inductive method_of : gty -> bytes -> bytes -> bytes -> Prop :=
| m_own g q x d m rs : of_named g q x -> W q x = Some d -> assoc (methods d) m = Some rs -> method_of g m q x
| m_promoted g q x d m fs t g' q' x' : lim = false -> of_named g q x -> W q x = Some d -> assoc (methods d) m = None ->
    typ d = Some (EStruct fs) -> ~ In m (field_names fs) -> In ([], t) fs -> tden q (imports d) [] t g' -> method_of g' m q' x' ->
    method_of g m q' x'.
(** mock.Patch(e, ...) is to replace the function, method or variable tg. *)
Inductive den (p : bytes) (I : imps) (v : env) : expr -> target -> Prop :=
| d_func e q x d : pden p I v e q x d -> kind d = KFunc -> den p I v e (TgFunc q x)
| d_inst e i q x d : pden p I v e q x d -> kind d = KFunc -> den p I v (EIndex e i) (TgFunc q x)
| d_var e q x d g : pden p I v e q x d -> kind d = KVar -> (lim = true -> vden p I v e g) -> den p I v (EAddr e) (TgVar q x)
| d_mexpr e m g q x : tden p I v e g -> method_of g m q x -> den p I v (ESel e m) (TgMethod q x m)
| d_value e m g q x : vden p I v e g -> method_of g m q x -> den p I v (ESel e m) (TgMethod q x m)
| d_paren e tg : den p I v e tg -> den p I v (EParen e) tg
| d_held x e r tg : lim = false -> lookup v x = Some (LDef e, r) -> den p I r e tg -> den p I v (EId x) tg.
(** The locals are no trap: all have different names, which mean nothing else in the package, in its files or in Go; no declaration reads a variable it declares. *)
Definition declared (d : ldecl) : list bytes := match d with DDefine ns _ | DVar ns _ _ => ns | DType n _ => [n] end.
Definition no_shadow (ctx : list (list ldecl)) : Prop :=
  NoDup (flat_map (fun d => map fst (group_of d)) (history ctx)) /\
  (forall d x, In d (history ctx) -> In x (declared d) -> W hp x = None /\ predeclared x = IUnknown /\ forall J, file_of hp J -> assoc J x = None) /\
  (forall ns rhs x, In (DDefine ns rhs) (history ctx) -> In x ns -> In (EId x) rhs -> blank x = true).
End Go.

(** ** Proofs *)
Lemma nodup_l A (a b : list A) : NoDup (a ++ b) -> NoDup a.
Proof. induction a; cbn; intros N; [constructor|]. inversion N; subst. constructor; auto. intros I. apply H1, in_app_iff. auto. Qed.
Lemma nodup_r A (a b : list A) : NoDup (a ++ b) -> NoDup b.
Proof. induction a; cbn; intros N; auto. inversion N; auto. Qed.
Section Locals.
Variable W : world.
Variables (hp : bytes) (hI : imps) (ctx : list (list ldecl)).
Hypothesis NS : no_shadow W hp hI ctx.

Definition dfs (d : ldecl) : list (bytes * def) :=
  match d with
  | DDefine ns rhs =>
      if length ns =? length rhs then defs_one ns rhs false
      else map (fun x => (x, {| d_split := false; d_multi := true; d_expr := hd EOther rhs |})) (filter (fun x => negb (blank x)) ns)
  | _ => []
  end.
Lemma assoc_app A (a b : list (bytes * A)) x : assoc (a ++ b) x = match assoc a x with Some y => Some y | None => assoc b x end.
Proof. induction a as [|[y v] a IH]; cbn; auto. now destruct (eqs x y). Qed.
Lemma ids_of_in l x : In x (ids_of l) -> In (EId x) l /\ blank x = false.
Proof.
  unfold ids_of. rewrite in_flat_map. intros (e & I & J). destruct e as [y| | | | | | | | | | | | | | | |]; try now cbn in J.
  destruct (blank y) eqn:B; [now cbn in J|]. destruct J as [<-|[]]; auto.
Qed.
Lemma memb_in x l : memb x l = true -> In x l.
Proof. unfold memb. rewrite existsb_exists. intros (y & I & E). apply eqs_eq in E. now subst. Qed.
Lemma no_split ns rhs : In (DDefine ns rhs) (history ctx) ->
  existsb (fun x => memb x (ids_of rhs)) (filter (fun x => negb (blank x)) ns) = false.
Proof.
  intros I. apply not_true_is_false. rewrite existsb_exists. intros (x & J & M). apply filter_In in J as [J B]. apply memb_in, ids_of_in in M as [M _].
  destruct NS as (_ & _ & N). rewrite (N ns rhs x) in B; auto. discriminate.
Qed.
Lemma declare_def fr f d : (forall ns rhs, d = DDefine ns rhs -> existsb (fun x => memb x (ids_of rhs)) (filter (fun x => negb (blank x)) ns) = false) ->
  exists f', declare (f :: fr) d = f' :: fr /\ f_defs f' = rev (dfs d) ++ f_defs f /\ (forall y, memb y (f_names f') = true -> memb y (f_names f) = true \/ In y (declared d)).
Proof.
  intros N. destruct d as [ns rhs|ns t vs|n t]; cbn [declare dfs declared].
  - rewrite (N _ _ eq_refl). eexists. split; [reflexivity|]. cbn. auto.
  - eexists. split; [reflexivity|]. cbn. split; auto. intros y. unfold memb. rewrite existsb_app, orb_true_iff. intros [H|H]; auto. right. now apply memb_in.
  - eexists. split; [reflexivity|]. cbn. split; auto. intros y. rewrite orb_true_iff. intros [H|H]; auto. right. apply eqs_eq in H. now left.
Qed.
Lemma block_frames b : forall f fr, (forall d, In d b -> In d (history ctx)) ->
  exists f', fold_left declare b (f :: fr) = f' :: fr /\ f_defs f' = flat_map (fun d => rev (dfs d)) (rev b) ++ f_defs f /\
  (forall y, memb y (f_names f') = true -> memb y (f_names f) = true \/ exists d, In d b /\ In y (declared d)).
Proof.
  induction b as [|d b IH]; intros f fr H; cbn [fold_left]; [exists f; cbn; auto|].
  destruct (declare_def fr f d) as (f1 & E & D & M). { intros ns rhs ->. apply no_split, H. now left. }
  rewrite E. destruct (IH f1 fr) as (f2 & E2 & D2 & M2). { intros; apply H; now right. }
  exists f2. split; auto. split.
  - rewrite D2, D. cbn [rev]. rewrite flat_map_app. cbn. rewrite app_nil_r, <- app_assoc. reflexivity.
  - intros y Y. destruct (M2 y Y) as [Z|(d' & I & Z)]; [destruct (M y Z) as [Q|Q]; auto; right; exists d; split; auto; now left|right; exists d'; split; auto; now right].
Qed.
Lemma frames_defs : forall c, (forall d, In d (history c) -> In d (history ctx)) ->
  (forall x, get_def (frames_of c) x = assoc (flat_map (fun d => rev (dfs d)) (history c)) x) /\
  (forall y, has (frames_of c) y = true -> (exists d, In d (history c) /\ In y (declared d)) \/ get_def (frames_of c) y <> None).
Proof.
  induction c as [|b c IH]; intros H; [split; [reflexivity|discriminate]|]. cbn [frames_of history flat_map] in *.
  assert (Hb : forall d, In d b -> In d (history ctx)). { intros d I. apply H. apply in_app_iff. left. now rewrite <- in_rev. }
  assert (Hc : forall d, In d (history c) -> In d (history ctx)). { intros d I. apply H. apply in_app_iff. now right. }
  destruct (IH Hc) as [E F]. destruct (block_frames b empty_frame (frames_of c) Hb) as (f & G & D & M). rewrite G. cbn [get_def has].
  cbn in D. rewrite app_nil_r in D. split.
  - intros x. fold (history c). rewrite D, flat_map_app, assoc_app, E. reflexivity.
  - intros y. fold (history c). rewrite D. rewrite !orb_true_iff. intros [[Y|Y]|Y].
    + destruct (M y Y) as [Z|(d & I & Z)]; [now cbn in Z|]. left. exists d. split; auto. apply in_app_iff. left. now rewrite <- in_rev.
    + right. destruct (assoc (flat_map (fun d => rev (dfs d)) (rev b)) y); congruence.
    + destruct (F y Y) as [(d & I & Z)|Z]; [left; exists d; split; auto; apply in_app_iff; auto|right; destruct (assoc (flat_map (fun d => rev (dfs d)) (rev b)) y); congruence].
Qed.
Lemma assoc_in A (l : list (bytes * A)) x a : assoc l x = Some a -> In (x, a) l.
Proof. induction l as [|[y b] l IH]; cbn; [discriminate|]. destruct (eqs x y) eqn:E; auto. intros [= ->]. apply eqs_eq in E. subst. now left. Qed.
Lemma in_assoc A (l : list (bytes * A)) x a : NoDup (map fst l) -> In (x, a) l -> assoc l x = Some a.
Proof.
  induction l as [|[y b] l IH]; cbn; [easy|]. intros N [[= -> ->]|I]; inversion N; subst.
  - now rewrite eqs_refl.
  - destruct (eqs x y) eqn:E; auto. apply eqs_eq in E. subst. exfalso. apply H1. apply in_map_iff. now exists (y, a).
Qed.
Lemma not_in_assoc A (l : list (bytes * A)) x : ~ In x (map fst l) -> assoc l x = None.
Proof. intros N. destruct (assoc l x) eqn:E; auto. apply assoc_in in E. exfalso. apply N. apply in_map_iff. now exists (x, a). Qed.
Lemma combine_group ns rhs : filter (fun b : bytes * local => negb (blank (fst b))) (combine ns (map LDef rhs)) = map (fun b => (fst b, LDef (d_expr (snd b)))) (defs_one ns rhs false).
Proof. revert rhs. induction ns as [|n ns IH]; intros [|r rhs]; cbn; auto. destruct (blank n); cbn; now rewrite IH. Qed.
Lemma defs_one_plain ns rhs x f : In (x, f) (defs_one ns rhs false) -> f = {| d_split := false; d_multi := false; d_expr := d_expr f |}.
Proof.
  revert rhs. induction ns as [|n ns IH]; intros [|r rhs]; cbn; try easy. rewrite in_app_iff. intros [I|I]; eauto.
  destruct (blank n); cbn in I; [easy|]. destruct I as [[= <- <-]|[]]. reflexivity.
Qed.
Lemma tuple_not_def ns e i x f : ~ In (x, LDef f) (tuple ns e i).
Proof. revert i. induction ns as [|n ns IH]; intros i; cbn; [easy|]. intros [?|?]; [discriminate|]. eapply IH; eauto. Qed.
Lemma tuple_names ns e i : map fst (tuple ns e i) = ns.
Proof. revert i. induction ns; intros; cbn; auto. now rewrite IHns. Qed.
Lemma map_fst_filter A (l : list (bytes * A)) q : map fst (filter (fun b => q (fst b)) l) = filter q (map fst l).
Proof. induction l as [|[y b] l IH]; cbn; auto. destruct (q y); cbn; now rewrite IH. Qed.
Lemma dfs_names d : dfs d = [] \/ map fst (dfs d) = map fst (group_of d).
Proof.
  destruct d as [ns rhs|ns t vs|n t]; auto. right. unfold dfs, group_of. destruct (length ns =? length rhs).
  - rewrite combine_group, !map_map. reflexivity.
  - rewrite (map_fst_filter _ _ (fun x => negb (blank x))), tuple_names, map_map. cbn. now rewrite map_id.
Qed.
Lemma group_def d x e : NoDup (map fst (group_of d)) -> assoc (group_of d) x = Some (LDef e) ->
  assoc (rev (dfs d)) x = Some {| d_split := false; d_multi := false; d_expr := e |}.
Proof.
  intros N A. pose proof (dfs_names d) as Q. apply assoc_in in A. destruct d as [ns rhs|ns t vs|n t].
  - assert (N' : NoDup (map fst (rev (dfs (DDefine ns rhs))))).
    { rewrite map_rev. apply NoDup_rev. destruct Q as [Q|Q]; rewrite Q; auto. constructor. }
    apply in_assoc; auto. rewrite <- in_rev. unfold group_of, dfs in *. destruct (length ns =? length rhs).
    + rewrite combine_group in A. apply in_map_iff in A as ([y f] & [= <- <-] & I). cbn. rewrite <- (defs_one_plain _ _ _ _ I). auto.
    + apply filter_In in A as [A _]. now apply tuple_not_def in A.
  - exfalso. unfold group_of in A. apply filter_In in A as [A _]. destruct t as [t|].
    + apply in_map_iff in A as (? & ? & _). discriminate.
    + destruct (length ns =? length vs).
      * apply in_combine_r in A. apply in_map_iff in A as (? & ? & _). discriminate.
      * apply in_map_iff in A as (? & ? & _). discriminate.
  - exfalso. unfold group_of in A. apply filter_In in A as [[A|[]] _]. discriminate.
Qed.
Lemma group_none d x : assoc (group_of d) x = None -> assoc (rev (dfs d)) x = None.
Proof.
  intros N. apply not_in_assoc. rewrite map_rev, <- in_rev. destruct (dfs_names d) as [Q|Q]; rewrite Q; [easy|]. intros I. apply in_map_iff in I as ([y l] & <- & I). cbn in N.
  revert N. clear -I. induction (group_of d) as [|[z m] g IH]; cbn; [easy|]. destruct I as [[= -> ->]|I]; [now rewrite eqs_refl|]. destruct (eqs y z); [discriminate|auto].
Qed.
Lemma lookup_def x : forall ds e r, NoDup (flat_map (fun d => map fst (group_of d)) ds) -> lookup (map group_of ds) x = Some (LDef e, r) ->
  assoc (flat_map (fun d => rev (dfs d)) ds) x = Some {| d_split := false; d_multi := false; d_expr := e |}.
Proof.
  induction ds as [|d ds IH]; cbn; intros e r N L; [discriminate|]. rewrite assoc_app.
  assert (N1 : NoDup (map fst (group_of d))) by (eapply nodup_l; exact N).
  assert (N2 : NoDup (flat_map (fun d => map fst (group_of d)) ds)) by (eapply nodup_r; exact N).
  destruct (assoc (group_of d) x) as [l|] eqn:A.
  - injection L as -> _. now rewrite (group_def d x e).
  - rewrite group_none by auto. now apply IH in L.
Qed.
Lemma lookup_in x : forall v l r, lookup v x = Some (l, r) -> In x (flat_map (map fst) v).
Proof.
  induction v as [|g v IH]; cbn; [discriminate|]. intros l r L. apply in_app_iff. destruct (assoc g x) eqn:A; [left|right; eauto].
  apply assoc_in in A. apply in_map_iff. now exists (x, l0).
Qed.
Lemma lookup_suffix x : forall pre v l r, NoDup (flat_map (map fst) (pre ++ v)) -> lookup v x = Some (l, r) -> lookup (pre ++ v) x = Some (l, r).
Proof.
  induction pre as [|g pre IH]; cbn; intros v l r N L; auto.
  assert (M : In x (flat_map (map fst) (pre ++ v))) by (rewrite flat_map_app, in_app_iff; right; eapply lookup_in; eauto).
  destruct (assoc g x) eqn:A.
  - exfalso. apply assoc_in in A. assert (In x (map fst g)) by (apply in_map_iff; now exists (x, l0)).
    revert N. induction (map fst g) as [|z zs IHz]; cbn; [easy|]. intros N. inversion N; subst. destruct H as [->|H]; auto. apply H2, in_app_iff. auto.
  - apply IH; auto. eapply nodup_r; exact N.
Qed.
Lemma lookup_rest x : forall v l r, lookup v x = Some (l, r) -> exists pre, v = pre ++ r /\ pre <> [].
Proof.
  induction v as [|g v IH]; cbn; [discriminate|]. intros l r L. destruct (assoc g x).
  - injection L as <- <-. exists [g]. split; auto. discriminate.
  - destruct (IH _ _ L) as (pre & -> & _). exists (g :: pre). split; auto. discriminate.
Qed.

Definition HF := frames_of ctx.
Lemma flat_map_map A B C (f : A -> B) (g : B -> list C) l : flat_map g (map f l) = flat_map (fun a => g (f a)) l.
Proof. induction l; cbn; congruence. Qed.
Lemma env_nodup : NoDup (flat_map (map fst) (env_of ctx)).
Proof. unfold env_of. rewrite flat_map_map. apply NS. Qed.
Lemma home_def pre v x e r : env_of ctx = pre ++ v -> lookup v x = Some (LDef e, r) ->
  get_def HF x = Some {| d_split := false; d_multi := false; d_expr := e |}.
Proof.
  intros E L. destruct (frames_defs ctx) as [D _]; auto. unfold HF. rewrite D. apply lookup_def with (r := r); [apply NS|].
  fold (env_of ctx). rewrite E. apply lookup_suffix; auto. rewrite <- E. apply env_nodup.
Qed.
Lemma dfs_declared d x : In x (map fst (dfs d)) -> In x (declared d).
Proof.
  destruct d as [ns rhs|ns t vs|n t]; cbn; try easy. destruct (length ns =? length rhs).
  - revert rhs. induction ns as [|n ns IH]; intros [|r rhs]; cbn; try easy. rewrite map_app, in_app_iff. intros [I|I]; [|right; eauto]. destruct (blank n); cbn in I; [easy|]. destruct I as [->|[]]. now left.
  - rewrite map_map. cbn. rewrite map_id. intros I. now apply filter_In in I as [I _].
Qed.
Lemma home_fresh x : W hp x <> None \/ (exists J, file_of W hp hI hp J /\ assoc J x <> None) \/ predeclared x <> IUnknown -> get_def HF x = None /\ has HF x = false.
Proof.
  intros H. destruct NS as (_ & N & _).
  assert (F : forall d, In d (history ctx) -> In x (declared d) -> False).
  { intros d I J. destruct (N d x I J) as (A & B & C). destruct H as [H|[(K & K1 & K2)|H]]; auto. }
  destruct (frames_defs ctx) as [D G]; auto. fold HF in *.
  assert (Z : get_def HF x = None).
  { unfold HF. rewrite D. destruct (assoc _ x) eqn:A; auto. apply assoc_in in A. apply in_flat_map in A as (d' & I & A). rewrite <- in_rev in A. exfalso. eapply F; eauto. apply dfs_declared. apply in_map_iff. now exists (x, d). }
  split; auto. apply not_true_is_false. intros Y. destruct (G x Y) as [(d & I & Q)|Q]; eauto.
Qed.
End Locals.

Section Main.
Variable W : world.
Variables (hp : bytes) (hI : imps) (ctx : list (list ldecl)).
Hypothesis NS : no_shadow W hp hI ctx.
Notation FR := (HF ctx).

Definition okscope (sc : scope) (p : bytes) (I : imps) (v : env) (ns : list bytes) : Prop :=
  s_pkg sc = p /\ file_of W hp hI p (s_imports sc) /\ (forall a, In a ns -> assoc (s_imports sc) a = assoc I a) /\
  (s_frames sc = [] \/ p = hp /\ s_frames sc = FR) /\
  (v = [] \/ p = hp /\ s_frames sc = FR /\ s_imports sc = I /\ exists pre, env_of ctx = pre ++ v).
Lemma ok_less sc p I v ns ns' : okscope sc p I v ns -> incl ns' ns -> okscope sc p I v ns'.
Proof. intros (A & B & C & D & E) H. repeat split; auto. Qed.
Lemma ok_fresh sc p I v ns x : okscope sc p I v ns -> In x ns -> W p x <> None \/ assoc I x <> None \/ predeclared x <> IUnknown ->
  get_def (s_frames sc) x = None /\ has (s_frames sc) x = false.
Proof.
  intros (A & B & C & D & E) IN H. destruct D as [D|[D1 D2]]; [rewrite D; auto|]. rewrite D2. apply (home_fresh W hp hI ctx NS). rewrite D1 in B, H.
  destruct H as [H|[H|H]]; auto. right. left. exists (s_imports sc). split; [exact B|]. now rewrite C.
Qed.
Lemma ok_def sc p I v ns x e r : okscope sc p I v ns -> lookup v x = Some (LDef e, r) ->
  get_def (s_frames sc) x = Some {| d_split := false; d_multi := false; d_expr := e |} /\ forall ns', okscope sc p I r ns'.
Proof.
  intros (A & B & C & D & E) L. destruct E as [->|(E1 & E2 & E3 & pre & E4)]; [discriminate|]. split.
  - rewrite E2. eapply home_def; eauto.
  - intros ns'. repeat split; auto. { intros. now rewrite E3. }
    right. destruct (lookup_rest _ _ _ _ L) as (pre' & -> & _). repeat split; auto. exists (pre ++ pre'). now rewrite <- app_assoc.
Qed.
Definition core := fix core (t : ty) : ty := match t with TNamed _ _ u => core u | TInst u => core u | _ => t end.
Definition nolazy (t : ty) : Prop := match t with TLazy _ _ => False | _ => True end.
Inductive rep : ty -> gty -> Prop :=
| r_named p n u q x d : resolve_alias p n u = (q, x) -> W q x = Some d ->
    (forall fs, typ d = Some (EStruct fs) -> exists sc, okscope sc q (imports d) [] (decl_names d) /\ core u = TStruct (map (field_of sc) fs)) ->
    rep (TNamed p n u) (GNamed q x)
| r_inst p n u q x : rep (TNamed p n u) (GNamed q x) -> rep (TInst (TNamed p n u)) (GNamed q x)
| r_ptr t g : rep t g -> rep (TPtr t) (GPtr g)
| r_lazy sc e n t g : res W n sc e = ITy t -> rep t g -> nolazy t -> rep (TLazy sc e) g
| r_sig sc p I v rs : okscope sc p I v (flat_map (fun f => names (snd f)) rs) -> rep (TSig (map (fun r => TLazy sc (snd r)) rs)) (GFunc p I v rs)
| r_struct l fs : rep (TStruct l) (GStruct fs)
| r_basic : rep TBasic GOther
| r_other : rep TOther GOther.
Lemma rep_known t g : rep t g -> t <> TUnknown.
Proof. now intros []. Qed.
Lemma rep_import p g : ~ rep (TImport p) g.
Proof. intros H. inversion H. Qed.

Definition force (k : nat) (sc : scope) (e : expr) : ty := as_type (res W k sc e).
Lemma forced t g : rep t g -> exists n t', nolazy t' /\ rep t' g /\ forall k, n <= k -> force_lazy (force k) t = t'.
Proof.
  intros H. destruct t; try (exists 0; eexists; split; [|split; [exact H|reflexivity]]; exact I).
  inversion H; subst. exists n, t. split; auto. split; auto. intros k L. cbn. unfold force. rewrite (res_mono W n k sc e (ITy t)); auto. discriminate.
Qed.
Fixpoint depth (t : ty) : nat := match t with TNamed _ _ u => S (depth u) | TInst u => S (depth u) | _ => 1 end.
Lemma under_core f fs : forall t n, core t = TStruct fs -> depth t <= n -> under f n t = TStruct fs.
Proof. induction t; intros [|n] C L; cbn in *; try lia; try discriminate; auto; apply IHt; auto; lia. Qed.
Lemma under_named t q x d fs : rep t (GNamed q x) -> W q x = Some d -> typ d = Some (EStruct fs) ->
  exists n sc, okscope sc q (imports d) [] (decl_names d) /\ forall k m, n <= k -> n <= m -> under (force k) m t = TStruct (map (field_of sc) fs).
Proof.
  intros R D TS. assert (K : forall t, nolazy t -> rep t (GNamed q x) -> exists sc, okscope sc q (imports d) [] (decl_names d) /\ core t = TStruct (map (field_of sc) fs)).
  { intros t0 NL R0. assert (Q : forall p n u, rep (TNamed p n u) (GNamed q x) -> exists sc, okscope sc q (imports d) [] (decl_names d) /\ core u = TStruct (map (field_of sc) fs)).
    { intros p n u R1. inversion R1; subst. assert (d0 = d) by congruence. subst. auto. }
    inversion R0; subst; [now apply Q in R0|cbn; eauto|easy]. }
  destruct (forced t _ R) as (n & t' & NL & R' & F). destruct (K t' NL R') as (sc & O & C). destruct t; cbn in F.
  7: { exists (S (n + depth t')), sc. split; auto. intros k m Lk Lm. destruct m as [|m]; [lia|]. cbn [under]. rewrite F by lia. apply under_core; auto. lia. }
  all: exists (depth t'), sc; split; auto; intros k m Lk Lm; rewrite (F n (le_n _)); apply under_core; auto.
Qed.
Definition shape (t : ty) (q x : bytes) : Prop := exists p n u, (t = TNamed p n u \/ t = TInst (TNamed p n u)) /\ resolve_alias p n u = (q, x).
Lemma rep_shape t q x : nolazy t -> rep t (GNamed q x) -> shape t q x.
Proof.
  intros NL R. inversion R; subst; [exists p, n, u; auto| |easy]. inversion H1; subst. exists p, n, u. auto.
Qed.
Lemma field_named t g q x : rep t g -> of_named g q x ->
  exists n, forall k m y, n <= k -> field_obj W (force k) m t y = if own W q x y then IObj (OMethod q x y) else pick (under (force k) m (force_lazy (force k) t)) y.
Proof.
  intros R O. destruct (forced t g R) as (n & t' & NL & R' & F).
  destruct O as [->| ->].
  - destruct (rep_shape _ _ _ NL R') as (p & nm & u & E & A). exists n. intros k m y L. rewrite field_obj_eq. rewrite F by auto. destruct E as [->| ->]; cbv beta iota zeta; now rewrite A.
  - inversion R' as [ | | t0 g0 H0| | | | | ]; subst; [|easy]. destruct (forced t0 _ H0) as (n2 & t2 & NL2 & R2 & F2). destruct (rep_shape _ _ _ NL2 R2) as (p & nm & u & E & A).
    exists (n + n2). intros k m y L. rewrite field_obj_eq. rewrite F by lia. cbv beta iota zeta. rewrite F2 by lia. destruct E as [->| ->]; cbv beta iota zeta; now rewrite A.
Qed.
Lemma under_of_named t g q x d fs : rep t g -> of_named g q x -> W q x = Some d -> typ d = Some (EStruct fs) ->
  exists n sc, okscope sc q (imports d) [] (decl_names d) /\ forall k m y, n <= k -> n <= m ->
    pick (under (force k) m (force_lazy (force k) t)) y = pick (TStruct (map (field_of sc) fs)) y.
Proof.
  intros R O D TS. destruct (forced t g R) as (n & t' & NL & R' & F). destruct O as [->| ->].
  - destruct (under_named t' q x d fs R' D TS) as (n2 & sc & O & U). exists (n + n2), sc. split; auto. intros k m y Lk Lm. rewrite F by lia. now rewrite U by lia.
  - inversion R' as [ | | t0 g0 H0| | | | | ]; subst; [|easy]. destruct (under_named t0 q x d fs H0 D TS) as (n2 & sc & O & U). exists (S (n + n2)), sc. split; auto. intros k m y Lk Lm. rewrite F by lia.
    destruct m as [|m]; [lia|]. cbn [under]. now rewrite U by lia.
Qed.

(** Names of package-level declarations. *)
Definition at_decl (sc : scope) (q x : bytes) (d : decl) : Prop :=
  W q x = Some d /\ s_pkg sc = q /\ get_def (s_frames sc) x = None /\ has (s_frames sc) x = false /\ file_of W hp hI q (s_imports sc) /\
  (s_frames sc = [] \/ q = hp /\ s_frames sc = FR).
Lemma pden_at p I v e q x d : pden W p I v e q x d -> forall sc, okscope sc p I v (names e) ->
  exists j sc', at_decl sc' q x d /\ forall n, res W (j + n) sc e = res W (S n) sc' (EId x).
Proof.
  induction 1 as [x d L D|a q x d L D A D'|e q x d P IH]; intros sc O.
  - destruct (ok_fresh _ _ _ _ _ x O) as [F1 F2]; [now left|left; congruence|]. exists 1, sc. split; auto. destruct O as (? & ? & ? & ? & ?). repeat split; auto.
  - destruct (ok_fresh _ _ _ _ _ a O) as [F1 F2]; [now left|right; left; congruence|]. exists 2, (file_scope q d). split.
    + repeat split; auto. left. now exists x, d.
    + intros n. destruct O as (O1 & O2 & O3 & _). cbn [plus]. 
      assert (E : res W (S n) sc (EId a) = ITy (TImport q)). { cbn [res]. rewrite F1, F2, O1, D, O3, A by now left. reflexivity. }
      remember (S n) as k. cbn [res]. rewrite E, D'. reflexivity.
  - destruct (IH sc O) as (j & sc' & A & E). exists (S j), sc'. split; auto.
Qed.
Lemma at_ok sc q x d ns : at_decl sc q x d -> steady W hp hI q d -> incl ns (decl_names d) -> okscope sc q (imports d) [] ns.
Proof. intros (A & B & C & D & E & F) S H. repeat split; auto. Qed.
Lemma basic_pre x : memb x basic_names = true -> predeclared x = ITy TBasic.
Proof. intros H. apply memb_in in H. repeat (destruct H as [<-|H]; [reflexivity|]). destruct H. Qed.

Definition Res (sc : scope) (e : expr) (i : info) : Prop := exists n, forall m, n <= m -> res W m sc e = i.
Lemma Res_of n sc e i : res W n sc e = i -> i <> IUnknown -> Res sc e i.
Proof. intros E N. exists n. intros. eapply res_mono; eauto. Qed.
Lemma Res_S sc e i n : (forall m, n <= m -> res W (S m) sc e = i) -> Res sc e i.
Proof. intros H. exists (S n). intros [|m] L; [lia|]. apply H. lia. Qed.
Lemma tden_res p I v e g : tden W hp hI true p I v e g -> forall sc, okscope sc p I v (names e) ->
  exists t, Res sc e (ITy t) /\ rep t g /\ nolazy t.
Proof.
  induction 1 as [p I v x F B|p I v e q x d te g P K A T L D IH|? ? ? ? ? ? ? L|p I v e q x d te g P K A T L D IH
    |p I v e i q x q0 x0 d0 g P H1 IH1 H2 IH2|p I v e g H IH|p I v e g H IH|p I v fs|p I v rs|p I v e g H IH|? ? ? ? L|p I v k e|p I v|p I v e];
    intros sc O; try discriminate L.
  - exists TBasic. apply basic_pre in B. destruct F as (F1 & F2 & F3). destruct (ok_fresh _ _ _ _ _ x O) as [G1 G2]; [now left|right; right; congruence|].
    split; [|split; [constructor|exact Logic.I]]. apply (Res_of 1); [|discriminate]. destruct O as (O1 & O2 & O3 & _). cbn. now rewrite G1, G2, O1, F2, O3, F3 by now left.
  - destruct (L eq_refl) as [S N]. destruct (pden_at _ _ _ _ _ _ _ P sc O) as (j & sc' & At & E).
    destruct (IH sc') as (u & (n & R) & Ru & NL). { eapply at_ok; eauto. intros a Ia. unfold decl_names. rewrite T. apply in_app_iff. auto. }
    exists (TNamed q x u). split; [|split; [|exact Logic.I]].
    + apply (Res_of (j + n)); [|discriminate]. rewrite E. destruct At as (A1 & A2 & A3 & A4 & _). cbn [res]. rewrite A3, A4, A2, A1, K, T. cbv zeta. rewrite R by auto. cbn. pose proof (rep_known _ _ Ru). now destruct u.
    + apply r_named with (d := d); [|apply At|].
      * inversion Ru; subst; auto; exfalso; apply N; exact Logic.I.
      * intros fs Tf. rewrite T in Tf. injection Tf as ->. exists sc'. split; [eapply at_ok; eauto; apply incl_refl|].
        specialize (R (1 + n) (le_S _ _ (le_n _))); cbn in R; injection R as <-; reflexivity.
  - destruct (L eq_refl) as [S N]. destruct (pden_at _ _ _ _ _ _ _ P sc O) as (j & sc' & At & E).
    destruct (IH sc') as (u & (n & R) & Ru & NL). { eapply at_ok; eauto. intros a Ia. unfold decl_names. rewrite T. apply in_app_iff. auto. }
    exists (TNamed q x u). split; [|split; [|exact Logic.I]].
    + apply (Res_of (j + n)); [|discriminate]. rewrite E. destruct At as (A1 & A2 & A3 & A4 & _). cbn [res]. rewrite A3, A4, A2, A1, K, T. cbv zeta. rewrite R by auto. cbn. pose proof (rep_known _ _ Ru). now destruct u.
    + destruct g; try now exfalso. inversion Ru; subst; [econstructor; eauto| |easy].
      inversion H1; subst. econstructor; eauto.
  - destruct (IH1 sc) as (t & (n & R) & Rt & NL). { eapply ok_less; eauto. cbn. apply incl_appl, incl_refl. }
    destruct (IH2 sc) as (t2 & (n2 & R2) & Rt2 & NL2). { eapply ok_less; eauto. cbn. apply incl_appr, incl_refl. }
    exists (TInst t). split; [|split; [|exact Logic.I]].
    + apply (Res_S _ _ _ (n + n2)). intros m Lm. cbn [res]. cbv zeta. rewrite R, R2 by lia. cbn. pose proof (rep_known _ _ Rt2). now destruct t2.
    + assert (Sh : exists p' n' u', t = TNamed p' n' u').
      { destruct (pden_at _ _ _ _ _ _ _ P sc) as (j & sc' & At & E). { eapply ok_less; eauto. cbn. apply incl_appl, incl_refl. }
        specialize (E n). rewrite R in E by lia. destruct At as (A1 & A2 & A3 & A4 & _). cbn [res] in E. rewrite A3, A4, A2, A1 in E. cbv beta zeta in E.
        destruct (kind d0); [destruct (typ d0); [|discriminate]; destruct (as_type _) eqn:Q; try discriminate; injection E; intros; subst; eauto| |discriminate].
        destruct (typ d0); [destruct (as_type _); discriminate|]. destruct (value d0); [|discriminate]. destruct (res W n sc' _); try discriminate. destruct (type_of _); discriminate. }
      destruct Sh as (p' & n' & u' & ->). now constructor.
  - destruct (IH sc O) as (t & (n & R) & Rt & NL). exists (TPtr t). split; [|split; [now constructor|exact Logic.I]].
    apply (Res_S _ _ _ n). intros m Lm. cbn [res]. now rewrite R.
  - destruct (IH sc O) as (t & (n & R) & Rt & NL). exists t. split; auto. apply (Res_S _ _ _ n). auto.
  - eexists. split; [apply (Res_of 1); [reflexivity|discriminate]|]. split; [constructor|exact Logic.I].
  - eexists. split; [apply (Res_of 1); [reflexivity|discriminate]|]. split; [now constructor|exact Logic.I].
  - destruct (IH sc O) as (t & (n & R) & Rt & NL). exists TOther. split; [|split; [constructor|exact Logic.I]].
    apply (Res_S _ _ _ n). intros m Lm. cbn [res]. cbv zeta. rewrite R by auto. cbn. pose proof (rep_known _ _ Rt). now destruct t.
  - eexists. split; [apply (Res_of 1); [reflexivity|discriminate]|]. split; [constructor|exact Logic.I].
  - eexists. split; [apply (Res_of 1); [reflexivity|discriminate]|]. split; [constructor|exact Logic.I].
  - eexists. split; [apply (Res_of 1); [reflexivity|discriminate]|]. split; [constructor|exact Logic.I].
Qed.
Lemma own_true q x d m rs : W q x = Some d -> assoc (methods d) m = Some rs -> own W q x m = true.
Proof. intros A B. unfold own. now rewrite A, B. Qed.
Lemma own_false q x d m : W q x = Some d -> assoc (methods d) m = None -> own W q x m = false.
Proof. intros A B. unfold own. now rewrite A, B. Qed.
Lemma sel_type sc e t m i n : Res sc e (ITy t) -> (forall p, t <> TImport p) -> (forall k, n <= k -> field_obj W (force k) k t m = i) -> Res sc (ESel e m) i.
Proof.
  intros (n1 & R) N H. apply (Res_S _ _ _ (n + n1)). intros k L. cbn [res]. cbv beta zeta. rewrite R by lia. fold (force k).
  specialize (H k). unfold force in H. destruct t; try (apply H; lia). now exfalso; eapply N.
Qed.
Lemma sel_value sc e o m i n : Res sc e (IObj o) -> type_of o <> TUnknown -> (forall k, n <= k -> field_obj W (force k) k (type_of o) m = i) -> Res sc (ESel e m) i.
Proof.
  intros (n1 & R) N H. apply (Res_S _ _ _ (n + n1)). intros k L. cbn [res]. cbv beta zeta. rewrite R by lia.
  specialize (H k). unfold force in H. destruct (type_of o); try (apply H; lia).
Qed.
Lemma plain_name t : plain_embedded t -> embed_name t = type_name t.
Proof. intros (p & x & [->|[->|[->| ->]]]); reflexivity. Qed.
Lemma struct_field sc fs f t : NoDup (field_names fs) -> simple_fields fs -> field_type fs f t -> assoc (map (field_of sc) fs) f = Some (TLazy sc t).
Proof.
  intros N S (ns & J & K).
  assert (E : map fst (map (field_of sc) fs) = field_names fs).
  { clear N J. unfold field_names. induction fs as [|[a e] fs IH]; cbn; auto. rewrite IH by (intros ? ? ?; apply S; now right). destruct (S a e (or_introl eq_refl)) as [S1 S2].
    destruct a as [|a [|b r]]; cbn in *; auto; [|lia]. now rewrite plain_name by auto. }
  apply in_assoc; [now rewrite E|]. apply in_map_iff. exists (ns, t). split; auto. unfold field_of. cbn. f_equal. destruct (S _ _ J) as [S1 S2].
  destruct ns as [|a [|b r]]; cbn in *; try lia.
  - destruct K as [[]|[_ K]]. now rewrite plain_name by auto.
  - destruct K as [[->|[]]|[K _]]; [auto|discriminate].
Qed.
Lemma pre_fresh sc p I v ns x i : okscope sc p I v ns -> In x ns -> free W p I v x -> predeclared x = i -> i <> IUnknown -> Res sc (EId x) i.
Proof.
  intros O J (F1 & F2 & F3) E N. destruct (ok_fresh _ _ _ _ _ x O J) as [G1 G2]; [right; right; congruence|]. apply (Res_of 1); auto.
  destruct O as (O1 & O2 & O3 & _). cbn. now rewrite G1, G2, O1, F2, O3, F3 by auto.
Qed.
Lemma sig_under t q J v' rs : rep t (GFunc q J v' rs) -> exists n sc, okscope sc q J v' (flat_map (fun f => names (snd f)) rs) /\
  forall k m, n <= k -> n <= m -> under (force k) m t = TSig (map (fun r => TLazy sc (snd r)) rs).
Proof.
  intros R. inversion R; subst.
  - inversion H0; subst; [easy|]. exists (S (S n)), sc0. split; auto. intros k [|[|m]] Lk Lm; try lia. assert (Q : force k sc e = TSig (map (fun r => TLazy sc0 (snd r)) rs)) by (unfold force; rewrite (res_mono W n k sc e _ H) by (discriminate || lia); reflexivity). cbn [under]. now rewrite Q.
  - exists 1, sc. split; auto. intros k [|m] Lk Lm; [lia|]. reflexivity.
Qed.
Lemma vden_res p I v e g : vden W hp hI true p I v e g -> forall sc, okscope sc p I v (names e) ->
  exists o, Res sc e (IObj o) /\ rep (type_of o) g.
Proof.
  induction 1 as [p I v x e r g L D IH|? ? ? ? ? ? ? ? ? ? ? ? ? ? L|? ? ? ? ? ? ? L|? ? ? ? ? ? ? L
    |p I v e q x d t g P K T S D|p I v e q x d a g P K T V S D IH|p I v e q x d P K S|p I v e i q x d P K S|p I v|p I v rs
    |p I v e g D IH|p I v e g D IH|? ? ? ? ? L|p I v t g D|p I v t g F D|p I v t args g F D|p I v t a g D
    |p I v f args q J v' rs t g D IH R T|? ? ? ? ? ? ? ? ? ? ? ? ? L|p I v e f q x d fs t g g' D IH N Dx M T F Lm Tt]; intros sc O; try discriminate L.
  - destruct (ok_def _ _ _ _ _ _ _ _ O L) as [G O']. destruct (IH sc (O' _)) as (o & (n & R) & Ro). exists (OScope o). split; auto.
    apply (Res_S _ _ _ n). intros m Lm. cbn [res]. rewrite G. cbn. now rewrite R.
  - destruct (pden_at _ _ _ _ _ _ _ P sc O) as (j & sc' & At & E).
    destruct (tden_res _ _ _ _ _ D sc') as (u & (n & R) & Ru & NL). { eapply at_ok; eauto. intros a Ia. unfold decl_names. rewrite T. apply in_app_iff. auto. }
    exists (OVar q x u). split; auto. apply (Res_of (j + n)); [|discriminate]. rewrite E. destruct At as (A1 & A2 & A3 & A4 & _). cbn [res]. rewrite A3, A4, A2, A1, K, T. cbv beta zeta. rewrite R by auto. cbn. pose proof (rep_known _ _ Ru). now destruct u.
  - destruct (pden_at _ _ _ _ _ _ _ P sc O) as (j & sc' & At & E).
    destruct (IH sc') as (o & (n & R) & Ru). { eapply at_ok; eauto. intros b Ib. unfold decl_names. rewrite V. apply in_app_iff. right. apply in_app_iff. auto. }
    exists (OVar q x (type_of o)). split; auto. apply (Res_of (j + n)); [|discriminate]. rewrite E. destruct At as (A1 & A2 & A3 & A4 & _). cbn [res]. rewrite A3, A4, A2, A1, K, T, V. rewrite R by auto. pose proof (rep_known _ _ Ru). now destruct (type_of o).
  - destruct (pden_at _ _ _ _ _ _ _ P sc O) as (j & sc' & At & E). eexists. split.
    + apply (Res_of (j + 0)); [|discriminate]. rewrite E. destruct At as (A1 & A2 & A3 & A4 & _). cbn [res]. rewrite A3, A4, A2, A1, K. reflexivity.
    + cbn. constructor. eapply at_ok; eauto. intros a Ia. unfold decl_names. rewrite !in_app_iff. auto.
  - destruct (pden_at _ _ _ _ _ _ _ P sc) as (j & sc' & At & E). { eapply ok_less; eauto. apply incl_appl, incl_refl. }
    eexists. split.
    + apply (Res_of (1 + (j + 0))); [|discriminate]. cbn [plus res]. rewrite E. destruct At as (A1 & A2 & A3 & A4 & _). cbn [res]. rewrite A3, A4, A2, A1, K. reflexivity.
    + cbn. constructor. eapply at_ok; eauto. intros a Ia. unfold decl_names. rewrite !in_app_iff. auto.
  - eexists. split; [apply (Res_of 1); [reflexivity|discriminate]|]. constructor.
  - eexists. split; [apply (Res_of 1); [reflexivity|discriminate]|]. cbn. now constructor.
  - destruct (IH sc O) as (o & (n & R) & Ro). exists o. split; auto. apply (Res_S _ _ _ n). auto.
  - destruct (IH sc O) as (o & (n & R) & Ro). exists (OPointer o). split; [|now constructor]. apply (Res_S _ _ _ n). intros m Lm. cbn [res]. now rewrite R.
  - destruct (tden_res _ _ _ _ _ D sc O) as (u & (n & R) & Ru & NL). exists (OValue u). split; auto. apply (Res_S _ _ _ (S n)). intros m Lm.
    pose proof (rep_known _ _ Ru) as KU. destruct m as [|m]; [lia|]. remember (S m) as k. destruct t; cbn [res]; cbv beta zeta; try (rewrite R by lia; cbn; now destruct u).
    specialize (R k). assert (Lk : n <= k) by lia. specialize (R Lk). subst k. cbn [res] in R. cbv beta zeta in R.
    assert (R1 : res W (S m) sc t1 = res W m sc t1). { apply res_mono1. intros Z. now rewrite Z in R. }
    destruct (res W m sc t1) as [| t|[]|] eqn:Q; try discriminate. destruct (as_type (res W m sc t2)) eqn:Q2; try discriminate; injection R as <-;
      (assert (R2 : res W (S m) sc t2 = res W m sc t2) by (apply res_mono1; intros Z; rewrite Z in Q2; discriminate); rewrite R1, R2, Q2; cbn; destruct t; try reflexivity; exfalso; inversion Ru; subst; try easy).
  - destruct (tden_res _ _ _ _ _ D sc) as (u & (n & R) & Ru & NL). { eapply ok_less; eauto. cbn. intros a A. right. rewrite app_nil_r. auto. }
    destruct (pre_fresh _ _ _ _ _ #"new" (IOp #"new") O) as (n2 & R2); auto; try discriminate; [now left|].
    exists (OPointer (OValue u)). split; [|cbn; now constructor]. apply (Res_S _ _ _ (n + n2)). intros m Lm. cbn [res]. cbv beta zeta. rewrite R2 by lia. rewrite eqs_refl, R by lia. cbn. pose proof (rep_known _ _ Ru). now destruct u.
  - destruct (tden_res _ _ _ _ _ D sc) as (u & (n & R) & Ru & NL). { eapply ok_less; eauto. cbn. intros a A. right. apply in_app_iff. auto. }
    destruct (pre_fresh _ _ _ _ _ #"make" (IOp #"make") O) as (n2 & R2); auto; try discriminate; [now left|].
    exists (OValue u). split; [|auto]. apply (Res_S _ _ _ (n + n2)). intros m Lm. cbn [res]. cbv beta zeta. rewrite R2 by lia. rewrite R by lia.
    change (eqs #"make" #"new") with false. change (eqs #"make" #"make") with true. cbn. pose proof (rep_known _ _ Ru). now destruct u.
  - destruct (tden_res _ _ _ _ _ D sc) as (u & (n & R) & Ru & NL). { eapply ok_less; eauto. cbn. apply incl_appl, incl_refl. }
    exists (OValue u). split; auto. apply (Res_S _ _ _ n). intros m Lm. cbn [res]. now rewrite R.
  - destruct (IH sc) as (o & (n & Ro) & Rg). { eapply ok_less; eauto. cbn. apply incl_appl, incl_refl. }
    destruct (sig_under _ _ _ _ _ Rg) as (n2 & sc' & O' & U). destruct R as (ns & -> & _). cbn in O'. rewrite app_nil_r in O'.
    destruct (tden_res _ _ _ _ _ T sc' O') as (u & (n3 & Rt) & Ru & NL). exists (OValue (TLazy sc' t)). split.
    + apply (Res_S _ _ _ (n + n2)). intros m Lm. cbn [res]. cbv beta zeta. rewrite Ro by lia. fold (force m). change (fun sc0 e => as_type (res W m sc0 e)) with (force m). rewrite U by lia. reflexivity.
    + cbn. apply r_lazy with (n := n3) (t := u); auto.
  - destruct (IH sc) as (o & Ro & Rg). { exact O. }
    destruct (field_named _ _ _ _ Rg N) as (n1 & E1). destruct (under_of_named _ _ _ _ _ _ Rg N Dx T) as (n2 & sc' & O' & E2).
    destruct (Lm eq_refl) as [ND SG].
    assert (At : assoc (map (field_of sc') fs) f = Some (TLazy sc' t)) by now apply struct_field.
    destruct (tden_res _ _ _ _ _ Tt sc') as (u & (n3 & Rt) & Ru & NL).
    { eapply ok_less; eauto. intros a A. unfold decl_names. rewrite T. apply in_app_iff. left. cbn. destruct F as (ns & Fi & _). apply in_flat_map. now exists (ns, t). }
    exists (OValue (TLazy sc' t)). split.
    + eapply sel_value with (n := n1 + n2); eauto; [eapply rep_known; eauto|]. intros k Lk. rewrite E1 by lia. rewrite (own_false q x d) by auto. rewrite E2 by lia. unfold pick. now rewrite At.
    + cbn. apply r_lazy with (n := n3) (t := u); auto.
Qed.
Definition named_by (i : info) (tg : target) : Prop :=
  match i, tg with
  | IObj (OFunc p x _), TgFunc q y => p = q /\ x = y
  | IObj (OMethod p t m), TgMethod q y k => p = q /\ t = y /\ m = k
  | IObj (OPointer (OVar p x _)), TgVar q y => p = q /\ x = y
  | _, _ => False
  end.
Lemma den_res p I v e tg : den W hp hI true p I v e tg -> forall sc, okscope sc p I v (names e) -> exists i, Res sc e i /\ named_by i tg.
Proof.
  induction 1 as [v e q x d P K|v e i q x d P K|v e q x d g P K D|v e m g q x D M|v e m g q x D M|v e tg D IH|? ? ? ? ? L]; intros sc O; try discriminate L.
  - destruct (pden_at _ _ _ _ _ _ _ P sc O) as (j & sc' & (A1 & A2 & A3 & A4 & _) & E). eexists. split.
    + apply (Res_of (j + 0)). { rewrite E. cbn [res]. rewrite A3, A4, A2, A1, K. reflexivity. } discriminate.
    + cbn. auto.
  - destruct (pden_at _ _ _ _ _ _ _ P sc) as (j & sc' & (A1 & A2 & A3 & A4 & _) & E). { eapply ok_less; eauto. apply incl_appl, incl_refl. }
    eexists. split.
    + apply (Res_of (1 + (j + 0))). { cbn [plus res]. rewrite E. cbn [res]. rewrite A3, A4, A2, A1, K. reflexivity. } discriminate.
    + cbn. auto.
  - specialize (D eq_refl). destruct (vden_res _ _ _ _ _ D sc O) as (o & (n & R) & Ro). exists (IObj (OPointer o)). split.
    + apply (Res_S _ _ _ n). intros m Lm. cbn [res]. now rewrite R.
    + destruct (pden_at _ _ _ _ _ _ _ P sc O) as (j & sc' & (A1 & A2 & A3 & A4 & _) & E). specialize (E n). rewrite R in E by lia. cbn [res] in E. rewrite A3, A4, A2, A1, K in E. cbv beta zeta in E.
      destruct (typ d); [destruct (as_type _); inversion E; subst; cbn; auto|]. destruct (value d); [|discriminate]. destruct (res W n sc' _) as [| |o'|]; try discriminate. destruct (type_of o'); inversion E; subst; cbn; auto.
  - destruct (tden_res _ _ _ _ _ D sc O) as (t & R & Rt & NL). inversion M; subst; [|discriminate]. destruct (field_named _ _ _ _ Rt H) as (n & E). exists (IObj (OMethod q x m)). split; [|cbn; auto].
    apply sel_type with (t := t) (n := n); auto. { intros p' ->. now apply rep_import in Rt. } intros k Lk. rewrite E by auto. now rewrite (own_true q x d m rs).
  - destruct (vden_res _ _ _ _ _ D sc O) as (o & R & Rt). inversion M; subst; [|discriminate]. destruct (field_named _ _ _ _ Rt H) as (n & E). exists (IObj (OMethod q x m)). split; [|cbn; auto].
    apply sel_value with (o := o) (n := n); auto. { eapply rep_known; eauto. } intros k Lk. rewrite E by auto. now rewrite (own_true q x d m rs).
  - destruct (IH sc O) as (i & (n & R) & N). exists i. split; auto. apply (Res_S _ _ _ n). auto.
Qed.
Lemma start_ok ns : okscope (call_scope hp hI ctx) hp hI (env_of ctx) ns.
Proof. repeat split; auto. { now right. } right. repeat split; auto. now exists []. Qed.
End Main.

(** ** C79, C80: the theorems *)
Definition tg_pkg (t : target) : bytes := match t with TgFunc p _ | TgMethod p _ _ | TgVar p _ => p end.
Definition tg_name (t : target) : bytes := match t with TgFunc _ x | TgMethod _ x _ | TgVar _ x => x end.
(** What mock.Patch(e, ...) replaces is recorded, and so instrumented.  Missing: the rules of Go with lim = false, and locals that hide something. *)
Theorem C79_replaced_function_instrumented_partial (allow : bytes -> bool) (W : world) (hp : bytes) (hI : imps) (ctx : list (list ldecl)) (e : expr) (tg : target) :
  no_shadow W hp hI ctx -> den W hp hI true hp hI (env_of ctx) e tg -> allow (tg_pkg tg) = true -> tg_pkg tg <> [] -> tg_name tg <> [] ->
  exists n, forall m, n <= m -> record allow W m (call_scope hp hI ctx) e = Some tg.
Proof.
  intros NS D A N1 N2. destruct (den_res W hp hI ctx NS _ _ _ _ _ D (call_scope hp hI ctx)) as (i & (n & R) & N); [now apply start_ok|].
  exists n. intros m L. unfold record. rewrite R by auto. destruct i as [| |o|]; cbn in N; try easy. destruct o as [| | | |[]| | |], tg; cbn in *; try easy.
  - destruct N as [-> ->]. rewrite A. destruct pkg0, name0; easy.
  - destruct N as (-> & -> & ->). rewrite A. destruct pkg0, tname0; easy.
  - destruct N as [-> ->]. rewrite A. destruct pkg0, name0; easy.
Qed.
(** Nothing else is recorded for the call. *)
Theorem C80_no_other_function_partial (allow : bytes -> bool) (W : world) (hp : bytes) (hI : imps) (ctx : list (list ldecl)) (e : expr) (tg tg' : target) n :
  no_shadow W hp hI ctx -> den W hp hI true hp hI (env_of ctx) e tg -> record allow W n (call_scope hp hI ctx) e = Some tg' -> tg' = tg /\ allow (tg_pkg tg) = true.
Proof.
  intros NS D E. destruct (den_res W hp hI ctx NS _ _ _ _ _ D (call_scope hp hI ctx)) as (i & (k & R) & N); [now apply start_ok|].
  assert (X : res W n (call_scope hp hI ctx) e = i).
  { rewrite <- (R (k + n)) by lia. symmetry. apply res_mono with (n := n); auto; [|lia]. intros Z. unfold record in E. now rewrite Z in E. }
  unfold record in E. rewrite X in E. destruct i as [| |o|]; cbn in N; try easy. destruct o as [| | | |[]| | |], tg; cbn in *; try easy;
  match type of E with (if ?c then _ else _) = _ => destruct c eqn:C; [|discriminate] end; injection E as <-; apply andb_true_iff in C as [_ C]; intuition congruence.
Qed.
(** The part of the rules used above is a part of the rules of Go. *)
Lemma basic_go x : memb x basic_names = true -> memb x go_predeclared = true.
Proof. intros H. unfold go_predeclared. unfold memb in *. cbn [existsb]. rewrite H. now rewrite !orb_true_r. Qed.
Lemma tden_go W hp hI p I v e g : tden W hp hI true p I v e g -> tden W hp hI false p I v e g.
Proof. induction 1; try discriminate; try (now econstructor; eauto; discriminate). constructor; auto. now apply basic_go. Qed.
Lemma vden_go W hp hI p I v e g : vden W hp hI true p I v e g -> vden W hp hI false p I v e g.
Proof.
  induction 1; try discriminate; try (now econstructor; eauto using tden_go; discriminate).
Qed.
Theorem C80_fragment_of_go W hp hI p I v e tg : den W hp hI true p I v e tg -> den W hp hI false p I v e tg.
Proof.
  assert (M : forall g m q x, method_of W hp hI true g m q x -> method_of W hp hI false g m q x).
  { induction 1; [econstructor; eauto|discriminate]. }
  induction 1; try discriminate.
  - eapply d_func; eauto.
  - eapply d_inst; eauto.
  - eapply d_var with (g := g); eauto. discriminate.
  - eapply d_mexpr; eauto using tden_go.
  - eapply d_value; eauto using vden_go.
  - now apply d_paren.
Qed.

(** ** Programs *)
Fixpoint world_of (l : list (bytes * bytes * decl)) : world :=
  match l with [] => fun _ _ => None | (p, x, d) :: r => fun q y => if eqs p q && eqs x y then Some d else world_of r q y end.
Definition mk_type (te : expr) (ms : list bytes) (I : imps) : decl :=
  {| kind := KType; alias := false; typ := Some te; value := None; results := []; methods := map (fun m => (m, [])) ms; imports := I |}.
Definition mk_alias (te : expr) (I : imps) : decl :=
  {| kind := KType; alias := true; typ := Some te; value := None; results := []; methods := []; imports := I |}.
Definition mk_func (rs : list (list bytes * expr)) (I : imps) : decl :=
  {| kind := KFunc; alias := false; typ := None; value := None; results := rs; methods := []; imports := I |}.
Definition mk_var (t v : option expr) (I : imps) : decl :=
  {| kind := KVar; alias := false; typ := t; value := v; results := []; methods := []; imports := I |}.
Definition app := #"example.com/app". Definition lib := #"example.com/lib".
Definition I0 : imps := [(#"lib", lib)].
Definition id (s : string) := EId #s.
Definition dot (e : expr) (s : string) := ESel e #s.
Definition all (_ : bytes) := true.
(** lib: type Repo struct{}; func (r *Repo) Get(); type Service struct { Repo *Repo; n int }; func New() *Service;
    type Svc = Service; var Default = New().  app: func run(). *)
Definition W1 : world := world_of
  [ (lib, #"Repo", mk_type (EStruct []) [#"Get"] []);
    (lib, #"Service", mk_type (EStruct [([#"Repo"], EStar (id "Repo")); ([#"n"], id "int")]) [#"Do"] []);
    (lib, #"New", mk_func [([], EStar (id "Service"))] []);
    (lib, #"Svc", mk_alias (id "Service") []);
    (lib, #"Default", mk_var None (Some (ECall (id "New") [])) []);
    (app, #"run", mk_func [] I0) ].
(** svc := lib.New(); repo := svc.Repo; mock.Patch(repo.Get, ...) *)
Definition ctx1 : list (list ldecl) := [[DDefine [#"repo"] [dot (id "svc") "Repo"]]; [DDefine [#"svc"] [ECall (dot (id "lib") "New") []]]].
Definition call1 := dot (id "repo") "Get".
Ltac nodup := repeat (apply NoDup_cons; [intros H; repeat (destruct H as [H|H]; [discriminate|]); destruct H|]); apply NoDup_nil.
Lemma world_inv l p x d : world_of l p x = Some d -> In (p, x, d) l.
Proof.
  induction l as [|[[q y] b] l IH]; cbn; [discriminate|]. destruct (eqs q p && eqs y x) eqn:E; auto. intros [= ->]. left. apply andb_true_iff in E as [E1 E2].
  apply eqs_eq in E1, E2. now subst.
Qed.
Lemma steady1 q x d : W1 q x = Some d -> steady W1 app I0 q d.
Proof.
  intros D J F a A. apply world_inv in D.
  assert (Q : q = lib /\ imports d = [] \/ q = app /\ decl_names d = []).
  { repeat (destruct D as [D|D]; [injection D as <- <- <-; auto|]). destruct D. }
  destruct Q as [[-> E]|[_ E]]; [|now rewrite E in A]. rewrite E.
  destruct F as [(y & d' & D' & ->)|[C _]]; [|discriminate]. apply world_inv in D'.
  assert (Q : imports d' = []). { repeat (destruct D' as [D'|D']; [try discriminate; injection D' as <- <-; auto|]). destruct D'. }
  now rewrite Q.
Qed.
Lemma no_shadow1 : no_shadow W1 app I0 ctx1.
Proof.
  split; [|split].
  - change (NoDup [#"repo"; #"svc"]). nodup.
  - intros d x D X. assert (E : x = #"repo" \/ x = #"svc") by (cbn in D; destruct D as [<-|[<-|[]]]; cbn in X; intuition).
    assert (F : forall J, file_of W1 app I0 app J -> J = I0).
    { intros J [(y & d' & D' & ->)|[_ ->]]; auto. apply world_inv in D'. repeat (destruct D' as [D'|D']; [try discriminate; injection D' as <- <-; auto|]). destruct D'. }
    destruct E as [->| ->]; (split; [reflexivity|split; [reflexivity|]]); intros J HJ; now rewrite (F J HJ).
  - intros ns rhs x D X E. cbn in D. destruct D as [[= <- <-]|[[= <- <-]|[]]]; cbn in X, E; intuition discriminate.
Qed.
Lemma den1 : den W1 app I0 true app I0 (env_of ctx1) call1 (TgMethod lib #"Repo" #"Get").
Proof.
  eapply d_value with (g := GPtr (GNamed lib #"Repo")).
  - eapply v_def; [reflexivity|]. eapply v_field with (q := lib) (x := #"Service") (g := GPtr (GNamed lib #"Service")) (t := EStar (id "Repo")).
    + eapply v_def; [reflexivity|]. eapply v_call with (q := lib) (J := []) (v' := []) (rs := [([], EStar (id "Service"))]).
      * apply (v_fun W1 app I0 true app I0 [] (dot (id "lib") "New") lib #"New" (mk_func [([], EStar (id "Service"))] [])); [eapply p_import; reflexivity|reflexivity|]. intros _. now apply (steady1 lib #"New").
      * exists []. split; [reflexivity|]. cbn. auto.
      * apply t_star. eapply t_named; [apply p_here; reflexivity|reflexivity|reflexivity|reflexivity| |apply t_struct]. intros _. split; [now apply (steady1 lib #"Service")|auto].
    + now right.
    + reflexivity.
    + reflexivity.
    + reflexivity.
    + exists [#"Repo"]. cbn. auto.
    + intros _. split; [change (NoDup [#"Repo"; #"n"]); nodup|]. intros ns0 t0 [H|[H|[]]]; injection H as <- <-; cbn; split; auto; discriminate.
    + apply t_star. eapply t_named; [apply p_here; reflexivity|reflexivity|reflexivity|reflexivity| |apply t_struct]. intros _. split; [now apply (steady1 lib #"Repo")|auto].
  - eapply m_own; [now right|reflexivity|reflexivity].
Qed.
Example C79_example : exists n, forall m, n <= m -> record all W1 m (call_scope app I0 ctx1) call1 = Some (TgMethod lib #"Repo" #"Get").
Proof. eapply C79_replaced_function_instrumented_partial; [apply no_shadow1|apply den1|reflexivity|discriminate|discriminate]. Qed.

(** ** What is missed.  In each of these programs Go gives the target, and nothing is recorded, so that mock.Patch fails. *)
Definition missed (W : world) (hp : bytes) (I : imps) (ctx : list (list ldecl)) (e : expr) (tg : target) : Prop :=
  den W hp I false hp I (env_of ctx) e tg /\ forall m, record all W m (call_scope hp I ctx) e = None.
Ltac none := intros m; do 12 (destruct m as [|m]; [reflexivity|]); reflexivity.
Ltac nam := eapply t_named_full; [reflexivity|first [apply p_here; reflexivity|eapply p_import; reflexivity]|reflexivity|reflexivity].
Ltac meth := eapply m_own; [now left|reflexivity|reflexivity].
Ltac methp := eapply m_own; [now right|reflexivity|reflexivity].
(** A method of an embedded field: type Outer struct { *Repo }; mock.Patch((&lib.Outer{}).Get, ...). *)
Definition W2 : world := world_of
  [ (lib, #"Repo", mk_type (EStruct []) [#"Get"] []); (lib, #"Outer", mk_type (EStruct [([], EStar (id "Repo"))]) [] []) ].
Lemma missed_promoted : missed W2 app I0 [] (dot (EAddr (EComp (dot (id "lib") "Outer"))) "Get") (TgMethod lib #"Repo" #"Get").
Proof.
  split; [|none]. eapply d_value; [apply v_addr, v_comp; nam|].
  eapply m_promoted; [reflexivity|now right|reflexivity|reflexivity|reflexivity| |now left|apply t_star; nam|methp].
  cbn. intros [H|[]]. discriminate.
Qed.
(** One of several results: svc, err := lib.Open(); mock.Patch(svc.Do, ...). *)
Definition W3 : world := world_of
  [ (lib, #"Service", mk_type (EStruct []) [#"Do"] []); (lib, #"Open", mk_func [([], EStar (id "Service")); ([], id "error")] []) ].
Definition open : expr := ECall (dot (id "lib") "Open") [].
Lemma missed_results : missed W3 app I0 [[DDefine [#"svc"; #"err"] [open]]] (dot (id "svc") "Do") (TgMethod lib #"Service" #"Do").
Proof.
  split; [|none]. eapply d_value; [|methp]. eapply v_tuple with (q := lib) (J := []) (v' := []) (rs := [([], EStar (id "Service")); ([], id "error")]); [reflexivity|reflexivity| |reflexivity|apply t_star; nam].
  apply (v_fun W3 app I0 false app I0 [] (dot (id "lib") "Open") lib #"Open" (mk_func [([], EStar (id "Service")); ([], id "error")] [])); [eapply p_import; reflexivity|reflexivity|discriminate].
Qed.
(** A declared variable or a parameter: var svc lib.Service; mock.Patch(svc.Do, ...). *)
Lemma missed_typed : missed W3 app I0 [[DVar [#"svc"] (Some (dot (id "lib") "Service")) []]] (dot (id "svc") "Do") (TgMethod lib #"Service" #"Do").
Proof. split; [|none]. eapply d_value; [|meth]. eapply v_typed; [reflexivity|reflexivity|nam]. Qed.
(** var svc = &lib.Service{}. *)
Lemma missed_value : missed W3 app I0 [[DVar [#"svc"] None [EAddr (EComp (dot (id "lib") "Service"))]]] (dot (id "svc") "Do") (TgMethod lib #"Service" #"Do").
Proof. split; [|none]. eapply d_value; [|methp]. eapply v_val; [reflexivity|reflexivity|]. apply v_addr, v_comp. nam. Qed.
(** A function held by a variable: f := lib.Open; mock.Patch(f, ...). *)
Lemma missed_held : missed W3 app I0 [[DDefine [#"f"] [dot (id "lib") "Open"]]] (id "f") (TgFunc lib #"Open").
Proof. split; [|none]. eapply d_held; [reflexivity|reflexivity|]. eapply d_func; [eapply p_import; reflexivity|reflexivity]. Qed.
(** A field declared along with others: struct { A, B *Repo }; mock.Patch((&lib.Two{}).A.Get, ...). *)
Definition W4 : world := world_of
  [ (lib, #"Repo", mk_type (EStruct []) [#"Get"] []); (lib, #"Two", mk_type (EStruct [([#"A"; #"B"], EStar (id "Repo"))]) [] []);
    (lib, #"List", mk_type (EArr (id "List")) [#"Len"] []); (lib, #"Runes", mk_type (EArr (id "rune")) [#"Len"] []); (lib, #"ErrFlag", mk_var (Some (id "error")) None []) ].
Lemma missed_group : missed W4 app I0 [] (dot (dot (EAddr (EComp (dot (id "lib") "Two"))) "A") "Get") (TgMethod lib #"Repo" #"Get").
Proof.
  split; [|none]. eapply d_value; [|methp]. eapply v_field; [apply v_addr, v_comp; nam|now right|reflexivity|reflexivity|reflexivity| |discriminate|apply t_star; nam].
  eexists. split; [now left|]. left. now left.
Qed.
(** A method of a type whose element type is a predeclared type xgo does not know: type Runes []rune. *)
Lemma missed_rune : missed W4 app I0 [] (dot (dot (id "lib") "Runes") "Len") (TgMethod lib #"Runes" #"Len").
Proof. split; [|none]. eapply d_mexpr; [nam|meth]. Qed.
(** A variable of type error. *)
Lemma missed_error : missed W4 app I0 [] (EAddr (dot (id "lib") "ErrFlag")) (TgVar lib #"ErrFlag").
Proof. split; [|none]. eapply d_var with (g := GOther); [eapply p_import; reflexivity|reflexivity|discriminate]. Qed.
(** The result of a method: lib.Default.Repo().Get, with func (s *Service) Repo() *Repo. *)
Definition W5 : world := world_of
  [ (lib, #"Repo", mk_type (EStruct []) [#"Get"] []);
    (lib, #"Service", {| kind := KType; alias := false; typ := Some (EStruct []); value := None; results := []; methods := [(#"Repo", [([], EStar (id "Repo"))])]; imports := [] |});
    (lib, #"Default", mk_var (Some (EStar (id "Service"))) None []) ].
Lemma missed_method_result : missed W5 app I0 [] (dot (ECall (dot (dot (id "lib") "Default") "Repo") []) "Get") (TgMethod lib #"Repo" #"Get").
Proof.
  split; [|none]. eapply d_value; [|methp]. eapply v_method with (q := lib) (x := #"Service") (g := GPtr (GNamed lib #"Service")); [reflexivity| |now right|reflexivity|reflexivity| |apply t_star; nam].
  - eapply v_var; [eapply p_import; reflexivity|reflexivity|reflexivity|discriminate|apply t_star; nam].
  - exists []. split; [reflexivity|]. cbn. auto.
Qed.
(** The type of a field is read with the imports of the file of the call: app has type T struct { R *lib.Repo } in a
    file that imports lib, and the call in a file that does not. *)
Definition W6 : world := world_of
  [ (lib, #"Repo", mk_type (EStruct []) [#"Get"] []); (app, #"T", mk_type (EStruct [([#"R"], EStar (dot (id "lib") "Repo"))]) [] I0) ].
Lemma missed_file : missed W6 app [] [] (dot (dot (EComp (id "T")) "R") "Get") (TgMethod lib #"Repo" #"Get").
Proof.
  split; [|none]. eapply d_value; [|methp]. eapply v_field; [apply v_comp; nam|now left|reflexivity|reflexivity|reflexivity| |discriminate|].
  - eexists. split; [now left|]. left. now left.
  - apply t_star. nam.
Qed.
Theorem C79_replaced_function_instrumented_refuted : exists W hp I ctx e tg, no_shadow W hp I ctx /\ missed W hp I ctx e tg.
Proof.
  exists W3, app, I0, [[DDefine [#"svc"; #"err"] [open]]], (dot (id "svc") "Do"), (TgMethod lib #"Service" #"Do"). split; [|apply missed_results].
  split; [change (NoDup [#"svc"; #"err"]); nodup|split].
  - intros d x D X. assert (E : x = #"svc" \/ x = #"err") by (cbn in D; destruct D as [<-|[]]; cbn in X; intuition).
    assert (F : forall J, file_of W3 app I0 app J -> J = I0).
    { intros J [(y & d' & D' & ->)|[_ ->]]; auto. apply world_inv in D'. repeat (destruct D' as [D'|D']; [discriminate|]). destruct D'. }
    destruct E as [->| ->]; (split; [reflexivity|split; [reflexivity|]]); intros J HJ; now rewrite (F J HJ).
  - intros ns rhs x D X E. cbn in D. destruct D as [[= <- <-]|[]]. cbn in E. destruct E as [E|[]]. discriminate.
Qed.

(** ** The wrong function *)
Definition mistaken (W : world) (hp : bytes) (I : imps) (ctx : list (list ldecl)) (e : expr) (tg tg' : target) : Prop :=
  den W hp I false hp I (env_of ctx) e tg /\ tg' <> tg /\ exists n, forall m, n <= m -> record all W m (call_scope hp I ctx) e = Some tg'.
Ltac runs := exists 10; intros m L; do 10 (destruct m as [|m]; [lia|]); reflexivity.
(** A defined type is taken for the type it is defined from: type A B, both with a method M; mock.Patch(lib.A.M, ...). *)
Definition W7 : world := world_of [ (lib, #"B", mk_type (EStruct []) [#"M"] []); (lib, #"A", mk_type (id "B") [#"M"] []) ].
Lemma mistaken_defined : mistaken W7 app I0 [] (dot (dot (id "lib") "A") "M") (TgMethod lib #"A" #"M") (TgMethod lib #"B" #"M").
Proof. split; [|split; [discriminate|runs]]. eapply d_mexpr; [nam|meth]. Qed.
(** A parameter hides a variable of the same name: x := &lib.B{}; func(x *lib.C) { mock.Patch(x.M, ...) }. *)
Definition W8 : world := world_of [ (lib, #"B", mk_type (EStruct []) [#"M"] []); (lib, #"C", mk_type (EStruct []) [#"M"] []) ].
Lemma mistaken_parameter :
  mistaken W8 app I0 [[DVar [#"x"] (Some (EStar (dot (id "lib") "C"))) []]; [DDefine [#"x"] [EAddr (EComp (dot (id "lib") "B"))]]] (dot (id "x") "M")
    (TgMethod lib #"C" #"M") (TgMethod lib #"B" #"M").
Proof. split; [|split; [discriminate|runs]]. eapply d_value; [|methp]. eapply v_typed; [reflexivity|reflexivity|]. apply t_star. nam. Qed.
(** Two files of a package import different packages under one name. *)
Definition W9 : world := world_of
  [ (#"a/v", #"R", mk_type (EStruct []) [#"M"] []); (#"b/v", #"R", mk_type (EStruct []) [#"M"] []);
    (app, #"T", mk_type (EStruct [([#"F"], EStar (dot (id "v") "R"))]) [] [(#"v", #"a/v")]) ].
Lemma mistaken_file : mistaken W9 app [(#"v", #"b/v")] [] (dot (dot (EComp (id "T")) "F") "M") (TgMethod #"a/v" #"R" #"M") (TgMethod #"b/v" #"R" #"M").
Proof.
  split; [|split; [discriminate|runs]]. eapply d_value; [|methp]. eapply v_field; [apply v_comp; nam|now left|reflexivity|reflexivity|reflexivity| |discriminate|].
  - eexists. split; [now left|]. left. now left.
  - apply t_star. nam.
Qed.
Theorem C80_no_other_function_refuted : exists W hp I e tg tg', no_shadow W hp I [] /\ mistaken W hp I [] e tg tg'.
Proof.
  exists W7, app, I0, (dot (dot (id "lib") "A") "M"), (TgMethod lib #"A" #"M"), (TgMethod lib #"B" #"M"). split; [|apply mistaken_defined].
  split; [constructor|]. split; intros; easy.
Qed.

(** ** C81: the packages the names of a file stand for *)
(** An import: its written name, if any, and path; [clause path]: the name in the package clause of its files. *)
Definition go_name (clause : bytes -> bytes) (s : option bytes * bytes) : bytes := match fst s with Some n => n | None => clause (snd s) end.
Definition usable (n : bytes) : Prop := n <> [] /\ n <> #"_" /\ n <> #".".
Definition digit (c : ascii) : Prop := 48 <= nat_of_ascii c <= 57.
Definition last_element (path n : bytes) : Prop := ~ In "/"%char n /\ (path = n \/ exists dir, path = dir ++ "/"%char :: n).
Definition version (v : bytes) : Prop := exists ds, v = "v"%char :: ds /\ ds <> [] /\ length ds <= 18 /\ forall c, In c ds -> digit c.
(** v, then signs and digits. *)
Definition like_version (v : bytes) : Prop := exists r, v = "v"%char :: r /\ r <> [] /\ forall c, In c r -> digit c \/ c = "+"%char \/ c = "-"%char.
(** A package named after its directory, or the directory above a version. *)
Definition usual (path n : bytes) : Prop :=
  (last_element path n /\ ~ like_version n) \/ exists dir v, path = dir ++ "/"%char :: v /\ version v /\ last_element dir n.

Lemma digits_spec s : digits s = true <-> s <> [] /\ length s <= 18 /\ forall c, In c s -> digit c.
Proof.
  unfold digits. destruct s as [|a s]; [split; [discriminate|now intros (H & _)]|]. set (l := a :: s). rewrite andb_true_iff, Nat.leb_le, forallb_forall. unfold digit.
  split.
  - intros [L F]. split; [discriminate|]. split; auto. intros c I. specialize (F c I). apply andb_true_iff in F as [A B]. apply Nat.leb_le in A, B. lia.
  - intros (_ & L & F). split; auto. intros c I. specialize (F c I). apply andb_true_iff. rewrite !Nat.leb_le. lia.
Qed.
Lemma version_yes v : version v -> is_version v = true.
Proof. intros (ds & -> & N & L & D). cbn. rewrite eqc_refl. cbn. assert (H : digits ds = true) by (apply digits_spec; auto). now rewrite H. Qed.
Lemma version_no v : ~ like_version v -> is_version v = false.
Proof.
  intros N. destruct v as [|c r]; auto. apply not_true_is_false. cbn. intros H. apply andb_true_iff in H as [E H]. apply eqc_eq in E. subst c. apply N. exists r. split; auto.
  assert (D : forall s, digits s = true -> s <> [] /\ forall c, In c s -> digit c). { intros s E. apply digits_spec in E. tauto. }
  apply orb_true_iff in H as [H|H]; [destruct (D r H) as [A B]; split; auto|]. destruct r as [|c r]; [discriminate|]. split; [discriminate|].
  apply orb_true_iff in H as [H|H].
  - apply andb_true_iff in H as [E H]. apply eqc_eq in E. subst. destruct (D r H) as [A B]. intros a [<-|I]; auto.
  - apply andb_true_iff in H as [E H]. apply andb_true_iff in E as [E _]. apply eqc_eq in E. subst. destruct (D r H) as [A B]. intros a [<-|I]; auto.
Qed.
Lemma version_noslash v : version v -> ~ In "/"%char v.
Proof.
  intros (ds & -> & N & L & D) [E|I]; [discriminate|]. apply D in I. unfold digit in I. cbn in I. lia.
Qed.
Lemma guess_usual path n : usual path n -> guess_name path = n.
Proof.
  unfold guess_name. intros [[[S [->|(dir & ->)]] V]|(dir & v & -> & V & S & [->|(d2 & ->)])].
  - now rewrite cut_last_none.
  - rewrite cut_last_some by auto. now rewrite version_no.
  - rewrite cut_last_some by now apply version_noslash. rewrite version_yes by auto. now rewrite cut_last_none.
  - rewrite cut_last_some by now apply version_noslash. rewrite version_yes by auto. now rewrite cut_last_some.
Qed.
Lemma assoc_iff A (l : list (bytes * A)) x a : NoDup (map fst l) -> (assoc l x = Some a <-> In (x, a) l).
Proof. intros N. split; [apply assoc_in|now apply in_assoc]. Qed.
(** Each import whose name is written, whose package is loaded, or whose package has the usual name is found under its name.  Missing: the others, and dot imports. *)
Theorem C81_import_names_partial (clause loaded : bytes -> bytes) (specs : list (option bytes * bytes)) :
  (forall path, In (None, path) specs -> clause path <> [] /\ (loaded path = clause path \/ loaded path = [] /\ usual path (clause path))) ->
  NoDup (filter (fun n => nonempty n && negb (eqs n #".") && negb (eqs n #"_")) (map (go_name clause) specs)) ->
  forall x path, assoc (file_imports loaded specs) x = Some path <-> usable x /\ exists s, In s specs /\ go_name clause s = x /\ snd s = path.
Proof.
  intros H N x path.
  assert (E : forall s, In s specs -> local_name loaded s = go_name clause s).
  { intros [[n|] p] I; cbn; auto. destruct (H p I) as (A & [B|[B C]]).
    - unfold local_name. cbn. rewrite B. destruct (clause p); easy.
    - unfold local_name. cbn. rewrite B. now apply guess_usual. }
  set (ok := fun n => nonempty n && negb (eqs n #".") && negb (eqs n #"_")) in *.
  assert (F : file_imports loaded specs = rev (flat_map (fun s => if ok (go_name clause s) then [(go_name clause s, snd s)] else []) specs)).
  { unfold file_imports. f_equal. clear N H. induction specs as [|s r IH]; cbn [flat_map]; auto. rewrite IH by (intros; apply E; now right). cbv zeta. rewrite (E s) by now left. reflexivity. }
  rewrite F. rewrite assoc_iff.
  - rewrite <- in_rev, in_flat_map.
    assert (U : ok x = true <-> usable x).
    { unfold ok, usable. rewrite !andb_true_iff, !negb_true_iff, !eqs_false. destruct x; cbn; split; try tauto; try (intros [[? ?] ?]; try discriminate); intuition discriminate. }
    split.
    + intros (s & I & J). destruct (ok (go_name clause s)) eqn:O; [|easy]. destruct J as [[= <- <-]|[]]. rewrite <- U. split; auto. exists s. auto.
    + intros (V & s & I & <- & <-). exists s. split; auto. rewrite (proj2 U V). now left.
  - rewrite map_rev. apply NoDup_rev.
    assert (G : map fst (flat_map (fun s => if ok (go_name clause s) then [(go_name clause s, snd s)] else []) specs) = filter ok (map (go_name clause) specs)).
    { clear. induction specs as [|s r IH]; cbn; auto. rewrite map_app, IH. now destruct (ok (go_name clause s)). }
    now rewrite G.
Qed.
(** gopkg.in/yaml.v3 has the package clause yaml: until it is loaded, yaml stands for nothing. *)
Theorem C81_import_names_refuted : exists clause loaded specs x path,
  (forall p, loaded p = [] \/ loaded p = clause p) /\ usable x /\ (exists s, In s specs /\ go_name clause s = x /\ snd s = path) /\
  assoc (file_imports loaded specs) x = None.
Proof.
  exists (fun _ => #"yaml"), (fun _ => []), [(None, #"gopkg.in/yaml.v3")], #"yaml", #"gopkg.in/yaml.v3". split; [auto|]. split; [repeat split; discriminate|].
  split; [|reflexivity]. eexists. split; [now left|]. auto.
Qed.
Example C81_example :
  let clause := fun p => if eqs p #"github.com/a/b/v2" then #"b" else #"lib" in
  forall x path, assoc (file_imports (fun _ => []) [(None, #"github.com/a/b/v2"); (None, #"example.com/lib"); (Some #"_", #"x/y"); (Some #"z", #"x/y")]) x = Some path <->
    usable x /\ exists s, In s [(None, #"github.com/a/b/v2"); (None, #"example.com/lib"); (Some #"_", #"x/y"); (Some #"z", #"x/y")] /\ go_name clause s = x /\ snd s = path.
Proof.
  intros clause. apply C81_import_names_partial.
  - intros p I. destruct I as [[= <-]|[[= <-]|[|[|[]]]]]; try discriminate; (split; [discriminate|]); right; (split; [reflexivity|]).
    + right. exists #"github.com/a/b", #"v2". split; [reflexivity|]. split.
      * exists #"2". repeat split; try discriminate; [cbn; lia|..]; destruct H as [<-|[]]; cbn; lia.
      * split; [intros [?|[]]; discriminate|]. right. exists #"github.com/a". reflexivity.
    + left. split.
      * split; [intros H; repeat (destruct H as [H|H]; [discriminate|]); destruct H|]. right. exists #"example.com". reflexivity.
      * intros (r & E & _). discriminate.
  - change (NoDup [#"b"; #"lib"; #"z"]). nodup.
Qed.
