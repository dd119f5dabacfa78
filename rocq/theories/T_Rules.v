(** * C63-C65: mock rules *)
From Coq Require Import Ascii String List Arith Bool Lia.
From Verif Require Import M_Str M_Options M_Rules.
Import ListNotations.
Open Scope nat_scope.

(** ** Lists written with commas *)
Definition blank (c : ascii) : Prop := In c [" "; "009"; "010"; "011"; "012"; "013"]%char.
(** t is p without the white space around it. *)
Definition trimmed (p t : bytes) : Prop :=
  exists a b, p = a ++ t ++ b /\ Forall blank a /\ Forall blank b /\
    (forall c r, t = c :: r -> ~ blank c) /\ (forall c r, t = r ++ [c] -> ~ blank c).
(** The items of pieces: trimmed, without the empty ones, in order. *)
Inductive items : list bytes -> list bytes -> Prop :=
| it_nil : items [] []
| it_empty p ps l : trimmed p [] -> items ps l -> items (p :: ps) l
| it_item p t ps l : trimmed p t -> t <> [] -> items ps l -> items (p :: ps) (t :: l).
(** The items of a text: of the pieces between its commas. *)
Definition list_items (s : bytes) (l : list bytes) : Prop :=
  exists ps, s = join [","%char] ps /\ ps <> [] /\ Forall (fun p => ~ In ","%char p) ps /\ items ps l.
(** l keeps of l0 the first occurrence of every element. *)
Inductive first_occurrences {A} : list A -> list A -> Prop :=
| fo_nil : first_occurrences [] []
| fo_old l0 l x : In x l0 -> first_occurrences l0 l -> first_occurrences (l0 ++ [x]) l
| fo_new l0 l x : ~ In x l0 -> first_occurrences l0 l -> first_occurrences (l0 ++ [x]) (l ++ [x]).

Lemma is_space_iff c : is_space c = true <-> blank c.
Proof.
  unfold is_space, blank. rewrite existsb_exists. split.
  - intros (x & I & E). apply eqc_eq in E. now subst.
  - intros I. exists c. split; auto. apply eqc_refl.
Qed.
Lemma trim_left_spec s : exists a, s = a ++ trim_left s /\ Forall blank a /\ (forall c r, trim_left s = c :: r -> ~ blank c).
Proof.
  induction s as [|c s (a & E & B & N)]; cbn [trim_left].
  - exists []. repeat split; auto. discriminate.
  - destruct (is_space c) eqn:S.
    + exists (c :: a). cbn [app]. rewrite <- E. repeat split; auto. constructor; auto. now apply is_space_iff.
    + exists []. repeat split; auto. intros d r Q. injection Q as -> ->. rewrite <- is_space_iff. congruence.
Qed.
Lemma trim_spec p : trimmed p (trim_space p).
Proof.
  unfold trim_space. destruct (trim_left_spec p) as (a & E & B & N).
  destruct (trim_left_spec (rev (trim_left p))) as (b & E' & B' & N').
  set (t := trim_left (rev (trim_left p))) in *. apply (f_equal (@rev _)) in E'. rewrite rev_involutive, rev_app_distr in E'.
  exists a, (rev b). rewrite <- E'. repeat split; auto.
  - now apply Forall_rev.
  - intros c r Q. apply (N c (r ++ rev b)). rewrite E', Q. reflexivity.
  - intros c r Q. apply (N' c (rev r)). rewrite <- (rev_involutive t), Q, rev_app_distr. reflexivity.
Qed.
Lemma blank_prefix_unique a : forall a' (t t' : bytes), Forall blank a -> Forall blank a' -> (forall c r, t = c :: r -> ~ blank c) -> (forall c r, t' = c :: r -> ~ blank c) ->
  a ++ t = a' ++ t' -> t = t'.
Proof.
  induction a as [|x a IH]; intros a' t t' B B' N N' E.
  - cbn [app] in E. destruct a' as [|y a']; auto. inversion B' as [|? ? Y _]; subst. exfalso. exact (N _ _ eq_refl Y).
  - destruct a' as [|y a'].
    + cbn [app] in E. inversion B as [|? ? Y _]; subst. exfalso. exact (N' _ _ eq_refl Y).
    + injection E as -> E. inversion B; inversion B'; subst. eapply IH; eauto.
Qed.
Lemma all_blank_or (b : bytes) : Forall blank b -> b = [] \/ exists c r, b = c :: r /\ blank c.
Proof. intros [|c r H _]; eauto. Qed.
Lemma trimmed_unique p t t' : trimmed p t -> trimmed p t' -> t = t'.
Proof.
  intros (a & b & E & A & B & N & M) (a' & b' & E' & A' & B' & N' & M').
  assert (Z : forall (t : bytes), t = [] \/ exists r c, t = r ++ [c]) by (intros x; destruct x using rev_ind; [auto|right; eauto]).
  assert (Q : forall (a t b a' b' : bytes), Forall blank a -> Forall blank b -> Forall blank a' -> Forall blank b' -> a ++ t ++ b = a' ++ b' -> Forall blank t).
  { clear. intros a t b a' b' A B A' B' E. assert (F : Forall blank (a ++ t ++ b)) by (rewrite E; now apply Forall_app). apply Forall_app in F as [_ F]. now apply Forall_app in F as [F _]. }
  destruct t as [|c t1].
  - destruct t' as [|c' t1']; auto. exfalso. subst p. cbn [app] in E'. symmetry in E'.
    assert (F := Q a' (c' :: t1') b' a b A' B' A B E'). inversion F; subst. eapply N'; eauto.
  - destruct t' as [|c' t1'].
    + exfalso. subst p. cbn [app] in E'. assert (F := Q a (c :: t1) b a' b' A B A' B' E'). inversion F; subst. eapply N; eauto.
    + rewrite E in E'. apply blank_prefix_unique in E'; auto.
      * apply (f_equal (@rev _)) in E'. rewrite !rev_app_distr in E'. apply blank_prefix_unique in E'.
        -- apply (f_equal (@rev _)) in E'. now rewrite !rev_involutive in E'.
        -- now apply Forall_rev.
        -- now apply Forall_rev.
        -- intros x r R. apply (M x (rev r)). rewrite <- (rev_involutive (c :: t1)), R. reflexivity.
        -- intros x r R. apply (M' x (rev r)). rewrite <- (rev_involutive (c' :: t1')), R. reflexivity.
      * intros x r R. injection R as <- R. eapply N; eauto.
      * intros x r R. injection R as <- R. eapply N'; eauto.
Qed.
Lemma items_fun ps : items ps (filter non_empty (map trim_space ps)).
Proof.
  induction ps as [|p ps IH]; cbn [map filter]; [constructor|]. destruct (trim_space p) as [|c t] eqn:E; cbn [non_empty].
  - apply it_empty; auto. rewrite <- E. apply trim_spec.
  - apply it_item; auto; [|discriminate]. rewrite <- E. apply trim_spec.
Qed.
Lemma items_eq ps l : items ps l -> l = filter non_empty (map trim_space ps).
Proof.
  induction 1 as [|p ps l T I IH|p t ps l T N I IH]; auto; cbn [map filter]; rewrite (trimmed_unique _ _ _ (trim_spec p) T).
  - exact IH.
  - destruct t; [congruence|]. cbn [non_empty]. now rewrite IH.
Qed.
Lemma list_items_iff s l : list_items s l <-> l = filter non_empty (map trim_space (split ","%char s)).
Proof.
  split.
  - intros (ps & -> & N & F & I). rewrite split_join by auto. now apply items_eq.
  - intros ->. exists (split ","%char s). rewrite join_split. repeat split; auto using split_nonempty, items_fun. apply Forall_forall. intros x. apply split_no_sep.
Qed.
Lemma split_comma_list_iff s l : split_comma_list s = l <-> list_items s l.
Proof.
  rewrite list_items_iff. unfold split_comma_list. destruct s; cbn [non_empty]; [|intuition congruence]. cbn. intuition congruence.
Qed.
Lemma module_list_dedup ps : forall seen, module_list_from ps seen =
  (fix go l seen := match l with [] => [] | x :: r => if existsb (eqs x) seen then go r seen else x :: go r (x :: seen) end) (filter non_empty (map trim_space ps)) seen.
Proof.
  induction ps as [|p ps IH]; intros seen; auto. cbn [module_list_from map filter]. destruct (trim_space p) as [|c t] eqn:E; cbn [non_empty negb orb]; auto.
  destruct (existsb (eqs (c :: t)) seen); rewrite IH; reflexivity.
Qed.
Fixpoint dedup (l seen : list bytes) : list bytes := match l with [] => [] | x :: r => if existsb (eqs x) seen then dedup r seen else x :: dedup r (x :: seen) end.
Lemma mem_iff x l : existsb (eqs x) l = true <-> In x l.
Proof. rewrite existsb_exists. split; [intros (y & I & E); apply eqs_eq in E; now subst|intros I; exists x; split; auto using eqs_refl]. Qed.
Lemma mem_ext x l l' : (forall y, In y l <-> In y l') -> existsb (eqs x) l = existsb (eqs x) l'.
Proof.
  intros H. destruct (existsb (eqs x) l) eqn:E, (existsb (eqs x) l') eqn:E'; auto.
  - apply mem_iff, H, mem_iff in E. congruence.
  - apply mem_iff, H, mem_iff in E'. congruence.
Qed.
Lemma dedup_ext l : forall s s', (forall y, In y s <-> In y s') -> dedup l s = dedup l s'.
Proof.
  induction l as [|x l IH]; intros s s' H; auto. cbn [dedup]. rewrite (mem_ext x s s' H). destruct (existsb (eqs x) s'); [auto|].
  f_equal. apply IH. intros y. cbn [In]. now rewrite H.
Qed.
Lemma dedup_snoc l x : forall seen, dedup (l ++ [x]) seen = dedup l seen ++ (if existsb (eqs x) (seen ++ l) then [] else [x]).
Proof.
  induction l as [|y l IH]; intros seen; cbn [app dedup].
  - rewrite app_nil_r. destruct (existsb (eqs x) seen); reflexivity.
  - destruct (existsb (eqs y) seen) eqn:E; rewrite IH.
    + f_equal. erewrite mem_ext; [reflexivity|]. intros z. rewrite !in_app_iff. cbn [In]. apply mem_iff in E. intuition subst; auto.
    + cbn [app]. f_equal. f_equal. erewrite mem_ext; [reflexivity|]. intros z. cbn [In]. rewrite !in_app_iff. cbn [In]. tauto.
Qed.
Lemma dedup_first l : forall l', first_occurrences l l' <-> dedup l [] = l'.
Proof.
  intros l'. split.
  - induction 1 as [|l0 l x I F IH|l0 l x I F IH]; auto; rewrite dedup_snoc; cbn [app].
    + apply mem_iff in I. rewrite I, app_nil_r. auto.
    + rewrite <- mem_iff in I. destruct (existsb (eqs x) l0); [congruence|]. now rewrite IH.
  - intros <-. induction l as [|x l IH] using rev_ind; [constructor|]. rewrite dedup_snoc. cbn [app]. destruct (existsb (eqs x) l) eqn:E.
    + rewrite app_nil_r. apply fo_old; auto. now apply mem_iff.
    + apply fo_new; auto. rewrite <- mem_iff. congruence.
Qed.
Lemma module_list_iff s l : parse_module_list s = l <-> exists l0, list_items s l0 /\ first_occurrences l0 l.
Proof.
  assert (E : parse_module_list s = dedup (split_comma_list s) []).
  { unfold parse_module_list, split_comma_list. destruct (non_empty s); auto. apply module_list_dedup. }
  rewrite E. split.
  - intros <-. exists (split_comma_list s). split; [now apply split_comma_list_iff|now apply dedup_first].
  - intros (l0 & I & F). apply split_comma_list_iff in I. subst l0. now apply dedup_first.
Qed.

(** ** C63: the rules in force *)
(** What each rule of the command line stands for, empty ones skipped. *)
Inductive reads (parse : bytes -> option rule) : list bytes -> list rule -> Prop :=
| rd_nil : reads parse [] []
| rd_empty l rs : reads parse l rs -> reads parse ([] :: l) rs
| rd_rule s r l rs : s <> [] -> parse s = Some r -> reads parse l rs -> reads parse (s :: l) (r :: rs).
Lemma parse_rules_iff parse l rs : parse_rules parse l = Some rs <-> reads parse l rs.
Proof.
  split.
  - revert rs. induction l as [|s l IH]; intros rs H; cbn [parse_rules] in H; [injection H as <-; constructor|].
    destruct s as [|c s]; cbn [non_empty negb] in H; [apply rd_empty; auto|].
    destruct (parse (c :: s)) eqn:E; [|discriminate]. destruct (parse_rules parse l); [|discriminate]. injection H as <-. apply rd_rule; auto. discriminate.
  - induction 1 as [|l rs R IH|s r l rs N P R IH]; auto. cbn [parse_rules]. destruct s as [|c s]; [congruence|]. cbn [non_empty negb]. now rewrite P, IH.
Qed.
(** The value given for the modules to be treated as main: the flag, or else the environment. *)
Definition has_text (v : bytes) : Prop := exists c, In c v /\ ~ blank c.
Definition chosen (flag env v : bytes) : Prop :=
  (has_text flag /\ v = flag) \/ (~ has_text flag /\ has_text env /\ v = env) \/ (~ has_text flag /\ ~ has_text env /\ v = []).
Lemma has_text_iff v : existsb (fun c => negb (is_space c)) v = true <-> has_text v.
Proof.
  rewrite existsb_exists. split; intros (c & I & E); exists c; split; auto.
  - rewrite <- is_space_iff. apply negb_true_iff in E. congruence.
  - rewrite <- is_space_iff in E. now apply negb_true_iff, not_true_iff_false.
Qed.
Lemma chosen_iff flag env v : first_non_empty [flag; env] = v <-> chosen flag env v.
Proof.
  unfold chosen. rewrite <- !has_text_iff. cbn [first_non_empty]. destruct (existsb _ flag), (existsb _ env); intuition congruence.
Qed.
Definition file_rules (file : option (option file_options)) (o : file_options) : Prop :=
  match file with None => o = {| o_rules := []; o_include := [] |} | Some f => f = Some o end.

(** The rules of the command line come first, in order, then those of the file; the modules
    named by the flag (or else the environment) replace those of the file; a file or rule
    that cannot be read is an error, unless nothing is asked of it. *)
Theorem C63_rules_in_force :
  forall parse file cli flag env o,
    effective_options parse file cli flag env = Some o <->
    exists f rs v mods, file_rules file f /\ reads parse cli rs /\ chosen flag env v /\
      (exists l, list_items v l /\ first_occurrences l mods) /\
      o_rules o = rs ++ o_rules f /\ o_include o = match mods with [] => o_include f | _ => mods end.
Proof.
  intros parse file cli flag env o. unfold effective_options, merge_options.
  set (from := match file with None => _ | Some f => f end).
  assert (FF : forall f, file_rules file f <-> from = Some f).
  { intros f. subst from. unfold file_rules. destruct file; [tauto|]. intuition congruence. }
  set (mods := parse_module_list (first_non_empty [flag; env])).
  assert (MM : forall v mods', chosen flag env v -> (exists l, list_items v l /\ first_occurrences l mods') -> mods' = mods).
  { intros v m C L. apply chosen_iff in C. apply module_list_iff in L. subst mods. now rewrite C. }
  assert (ME : exists l, list_items (first_non_empty [flag; env]) l /\ first_occurrences l mods) by (now apply module_list_iff).
  assert (NI : forall (f : file_options), (if 0 <? length mods then mods else o_include f) = match mods with [] => o_include f | _ => mods end) by (intros f; now destruct mods).
  split.
  - intros H. destruct ((length cli =? 0) && (length mods =? 0)) eqn:Z.
    + apply andb_prop in Z as [Z1 Z2]. apply Nat.eqb_eq, length_zero_iff_nil in Z1, Z2.
      exists o, [], (first_non_empty [flag; env]), mods. rewrite Z1. split; [now apply FF|]. split; [constructor|]. split; [now apply chosen_iff|]. split; auto. rewrite Z2. auto.
    + destruct from as [f|] eqn:EF; [|discriminate]. destruct (parse_rules parse cli) as [rs|] eqn:EP; [|discriminate]. injection H as <-.
      exists f, rs, (first_non_empty [flag; env]), mods. cbn [o_rules o_include]. rewrite NI.
      split; [now apply FF|]. split; [now apply parse_rules_iff|]. split; [now apply chosen_iff|]. auto.
  - intros (f & rs & v & m & F & R & C & L & O1 & O2). apply FF in F. apply parse_rules_iff in R. rewrite (MM v m C L) in O2. rewrite F, R.
    destruct ((length cli =? 0) && (length mods =? 0)) eqn:Z.
    + apply andb_prop in Z as [Z1 Z2]. apply Nat.eqb_eq, length_zero_iff_nil in Z1, Z2. rewrite Z1 in R. cbn in R. injection R as <-. rewrite Z2 in O2.
      f_equal. destruct o as [oa ob], f as [fa fb]. cbn [o_rules o_include app] in *. congruence.
    + f_equal. rewrite NI. destruct o as [oa ob]. cbn [o_rules o_include] in *. congruence.
Qed.
Print Assumptions C63_rules_in_force.
(** The instrumenter uses the same modules. *)
Theorem C63_modules_agree :
  forall parse file cli flag env o, effective_options parse file cli flag env = Some o -> include_as_main flag env o = o_include o.
Proof.
  intros parse file cli flag env o H. apply C63_rules_in_force in H as (f & rs & v & m & F & R & C & L & _ & O). unfold include_as_main.
  apply chosen_iff in C. apply module_list_iff in L. rewrite C, L, O. now destruct m.
Qed.
Print Assumptions C63_modules_agree.
Definition any_rule (a : bytes) : rule := {| r_any := true; r_kind := None; r_pkg := None; r_name := None; r_stdlib := None; r_main := None; r_generic := None; r_exported := None; r_closure := None; r_action := a |}.
Example C63_example :
  forall o, effective_options (fun s => Some (any_rule s)) (Some (Some {| o_rules := [any_rule #"z"]; o_include := [#"m"] |})) [#"a"; []; #"b"] #" , " #"x" = Some o ->
    o = {| o_rules := [any_rule #"a"; any_rule #"b"; any_rule #"z"]; o_include := [#"m"] |}.
Proof. intros o H. vm_compute in H. injection H as <-. reflexivity. Qed.
Example C63_example2 : parse_module_list #" a , b,,a ,c" = [#"a"; #"b"; #"c"].
Proof. reflexivity. Qed.

(** ** C64: what a rule selects *)
(** The conditions a rule states (condition, whether it holds), Any apart. *)
Inductive states (pat : bytes -> bytes -> bool) (r : rule) (d : decl) : Prop -> Prop :=
| st_kind s l : r_kind r = Some s -> list_items s l -> l <> [] -> states pat r d (In (d_kind d) l)
| st_pkg s l : r_pkg r = Some s -> list_items s l -> l <> [] -> states pat r d (exists p, In p l /\ pat p (d_pkg d) = true)
| st_name s l : r_name r = Some s -> list_items s l -> l <> [] -> states pat r d (exists p, In p l /\ pat p (d_identity d) = true)
| st_main b : r_main r = Some b -> states pat r d (d_main d = b)
| st_std b : r_stdlib r = Some b -> states pat r d (d_std d = b)
| st_generic b : r_generic r = Some b -> d_is_func d = true -> states pat r d (d_generic d = b)
| st_exported b : r_exported r = Some b -> states pat r d (d_exported d = b)
| st_closure b : r_closure r = Some b -> states pat r d (d_closure d = b).
(** A rule selects a declaration: it is for any, or states conditions and all hold. *)
Definition selects (pat : bytes -> bytes -> bool) (r : rule) (d : decl) : Prop :=
  r_any r = true \/ ((exists c, states pat r d c) /\ forall c, states pat r d c -> c).
Lemma opt_list_items o l : (exists s, o = Some s /\ list_items s l) <-> o <> None /\ opt_list o = l.
Proof.
  destruct o as [s|]; cbn [opt_list].
  - rewrite split_comma_list_iff. split; [intros (x & E & L); injection E as ->; split; [discriminate|auto]|intros [_ L]; eauto].
  - split; [intros (s & E & _); discriminate|intros [N _]; congruence].
Qed.
Lemma cond_list o (P : bytes -> bool) : (0 <? length (opt_list o)) && negb (existsb P (opt_list o)) = false <->
  forall s l, o = Some s -> list_items s l -> l <> [] -> exists p, In p l /\ P p = true.
Proof.
  rewrite andb_false_iff, negb_false_iff, existsb_exists, Nat.ltb_ge. split.
  - intros H s l -> L N. apply split_comma_list_iff in L. cbn [opt_list] in H. rewrite L in H. destruct H as [H|H]; auto. destruct l; [congruence|cbn in H; lia].
  - intros H. destruct o as [s|]; cbn [opt_list] in *; [|left; cbn; lia]. destruct (split_comma_list s) as [|x l] eqn:E; [left; cbn; lia|].
    right. apply split_comma_list_iff in E. apply (H s (x :: l)); auto. discriminate.
Qed.
Lemma cond_given o : (0 <? length (opt_list o)) = true <-> exists s l, o = Some s /\ list_items s l /\ l <> [].
Proof.
  rewrite Nat.ltb_lt. destruct o as [s|]; cbn [opt_list].
  - split.
    + intros H. exists s, (split_comma_list s). split; auto. split; [now apply split_comma_list_iff|]. intros E. rewrite E in H. cbn in H. lia.
    + intros (s' & l & E & L & N). injection E as <-. apply split_comma_list_iff in L. rewrite L. destruct l; [congruence|cbn; lia].
  - split; [cbn; lia|]. intros (s & l & E & _). discriminate.
Qed.
Lemma cond_flag (o : option bool) b : negb (match o with None => true | Some x => Bool.eqb x b end) = false <-> forall x, o = Some x -> b = x.
Proof.
  rewrite negb_false_iff. destruct o as [x|]; [|split; [discriminate|auto]]. rewrite eqb_true_iff. split; [intros -> y E; now injection E as ->|intros H; symmetry; auto].
Qed.
Theorem C64_selection :
  forall pat r d, match_rule pat r d = true <-> selects pat r d.
Proof.
  intros pat r d. unfold match_rule, selects. destruct (r_any r); [intuition|]. cbv zeta.
  assert (K : (0 <? length (opt_list (r_kind r))) && negb (existsb (eqs (d_kind d)) (opt_list (r_kind r))) = false <-> forall s l, r_kind r = Some s -> list_items s l -> l <> [] -> In (d_kind d) l).
  { rewrite cond_list. split; intros H s l E L N; specialize (H s l E L N); [destruct H as (p & I & Q); apply eqs_eq in Q; now subst|exists (d_kind d); split; auto using eqs_refl]. }
  assert (G : d_is_func d && negb (match r_generic r with None => true | Some x => Bool.eqb x (d_generic d) end) = false <-> forall x, r_generic r = Some x -> d_is_func d = true -> d_generic d = x).
  { rewrite andb_false_iff, cond_flag. split; [intros [H|H] x E F; [congruence|auto]|]. intros H. destruct (d_is_func d); [right|left]; auto. }
  assert (P := cond_list (r_pkg r) (fun p => pat p (d_pkg d))). assert (N := cond_list (r_name r) (fun p => pat p (d_identity d))).
  assert (M := cond_flag (r_main r) (d_main d)). assert (S := cond_flag (r_stdlib r) (d_std d)).
  assert (X := cond_flag (r_exported r) (d_exported d)). assert (C := cond_flag (r_closure r) (d_closure d)).
  match goal with |- context [if ?a then false else if ?b then false else if ?c then false else if ?e then false else if ?f then false else if ?g then false else if ?h then false else if ?i then false else ?j] =>
    set (ck := a) in *; set (cp := b) in *; set (cn := c) in *; set (cm := e) in *; set (cs := f) in *; set (cg := g) in *; set (cx := h) in *; set (cc := i) in *; set (some := j) end.
  assert (J : some = true <-> exists c, states pat r d c).
  { subst some. rewrite !orb_true_iff, !cond_given, andb_true_iff. split.
    - intros H. repeat match goal with H : _ \/ _ |- _ => destruct H as [H|H] end.
      + destruct H as (s & l & E & L & Q). eexists; eapply st_kind; eauto.
      + destruct H as (s & l & E & L & Q). eexists; eapply st_pkg; eauto.
      + destruct H as (s & l & E & L & Q). eexists; eapply st_name; eauto.
      + destruct (r_main r) as [b|] eqn:E; [|discriminate]. eexists; eapply st_main; eauto.
      + destruct (r_stdlib r) as [b|] eqn:E; [|discriminate]. eexists; eapply st_std; eauto.
      + destruct H as [H F]. destruct (r_generic r) as [b|] eqn:E; [|discriminate]. eexists; eapply st_generic; eauto.
      + destruct (r_exported r) as [b|] eqn:E; [|discriminate]. eexists; eapply st_exported; eauto.
      + destruct (r_closure r) as [b|] eqn:E; [|discriminate]. eexists; eapply st_closure; eauto.
    - intros [c H]. inversion H as [s l E L Q|s l E L Q|s l E L Q|b E|b E|b E F|b E|b E]; clear H.
      1-3: assert (Z : exists s l, _ = Some s /\ list_items s l /\ l <> []) by (exists s, l; split; [exact E|auto]); tauto.
      all: rewrite E; assert (Z : true = true) by auto; tauto. }
  assert (All : (ck = false /\ cp = false /\ cn = false /\ cm = false /\ cs = false /\ cg = false /\ cx = false /\ cc = false) <-> forall c, states pat r d c -> c).
  { rewrite K, P, N, M, S, G, X, C. split.
    - intros (H1 & H2 & H3 & H4 & H5 & H6 & H7 & H8) c H. inversion H; subst; eauto.
    - intros H. repeat split; intros.
      + apply (H (In (d_kind d) l)). eapply st_kind; eauto.
      + apply (H (exists p, In p l /\ pat p (d_pkg d) = true)). eapply st_pkg; eauto.
      + apply (H (exists p, In p l /\ pat p (d_identity d) = true)). eapply st_name; eauto.
      + apply (H (d_main d = x)). now apply st_main.
      + apply (H (d_std d = x)). now apply st_std.
      + apply (H (d_generic d = x)). now apply st_generic.
      + apply (H (d_exported d = x)). now apply st_exported.
      + apply (H (d_closure d = x)). now apply st_closure. }
  rewrite <- J, <- All. clearbody ck cp cn cm cs cg cx cc some. clear.
  destruct ck; [split; [discriminate|intros [Q|[_ (Q & _)]]; discriminate]|].
  destruct cp; [split; [discriminate|intros [Q|[_ (_ & Q & _)]]; discriminate]|].
  destruct cn; [split; [discriminate|intros [Q|[_ (_ & _ & Q & _)]]; discriminate]|].
  destruct cm; [split; [discriminate|intros [Q|[_ (_ & _ & _ & Q & _)]]; discriminate]|].
  destruct cs; [split; [discriminate|intros [Q|[_ (_ & _ & _ & _ & Q & _)]]; discriminate]|].
  destruct cg; [split; [discriminate|intros [Q|[_ (_ & _ & _ & _ & _ & Q & _)]]; discriminate]|].
  destruct cx; [split; [discriminate|intros [Q|[_ (_ & _ & _ & _ & _ & _ & Q & _)]]; discriminate]|].
  destruct cc; [split; [discriminate|intros [Q|[_ (_ & _ & _ & _ & _ & _ & _ & Q)]]; discriminate]|].
  split; [intros Q; right; split; auto; repeat split|intros [Q|[Q _]]; [discriminate|exact Q]].
Qed.
Print Assumptions C64_selection.
(** The first rule that selects a declaration decides. *)
Theorem C64_first_rule_decides :
  forall pat rules d,
    (exists before r after, rules = before ++ r :: after /\ selects pat r d /\ Forall (fun x => ~ selects pat x d) before /\ match_rules pat rules d = r_action r) \/
    (Forall (fun x => ~ selects pat x d) rules /\ match_rules pat rules d = []).
Proof.
  intros pat rules d. induction rules as [|r rules IH]; [right; auto|]. cbn [match_rules]. destruct (match_rule pat r d) eqn:E.
  - left. exists [], r, rules. apply C64_selection in E. auto.
  - assert (N : ~ selects pat r d) by (rewrite <- C64_selection; congruence).
    destruct IH as [(b & x & a & -> & S & F & M)|[F M]]; [left; exists (r :: b), x, a; auto|right; auto].
Qed.
Print Assumptions C64_first_rule_decides.
Definition rule_with (kind pkg name : option bytes) (main : option bool) (a : bytes) : rule :=
  {| r_any := false; r_kind := kind; r_pkg := pkg; r_name := name; r_stdlib := None; r_main := main; r_generic := None; r_exported := None; r_closure := None; r_action := a |}.
Definition fn (kind pkg name : bytes) (main : bool) : decl :=
  {| d_kind := kind; d_is_func := eqs kind #"func"; d_identity := name; d_exported := true; d_generic := false; d_closure := false; d_pkg := pkg; d_std := false; d_main := main |}.
Example C64_example :
  let rules := [rule_with (Some #"func") None None (Some true) #"include"; rule_with None (Some #" a/b , c ") None None #"include"; any_rule #"exclude"] in
  map (match_rules eqs rules) [fn #"func" #"m" #"F" true; fn #"var" #"m" #"V" true; fn #"var" #"c" #"V" false; fn #"func" #"d" #"F" false] =
  [#"include"; #"exclude"; #"include"; #"exclude"].
Proof. vm_compute. reflexivity. Qed.

(** ** C65: what the rules make xgo load *)
(** A package of a rule is loaded as written, and p/** as p/...; no other star is taken. *)
Definition loads_as (p q : bytes) : Prop :=
  (~ In "*"%char p /\ q = p) \/ (exists r, p = r ++ #"/**" /\ ~ In "*"%char r /\ q = r ++ #"/...").
Lemma index_star p : index p #"*" = None <-> ~ In "*"%char p.
Proof.
  split.
  - intros H I. apply in_split in I as (a & b & ->). exact (index_none _ _ H a b eq_refl).
  - intros N. destruct (index p #"*") eqn:E; auto. apply index_sound in E as (a & b & -> & _). exfalso. apply N. apply in_or_app. right. now left.
Qed.
Lemma load_pkg_iff p q : load_pkg p = Some q <-> loads_as p q.
Proof.
  unfold load_pkg, loads_as. destruct (index p #"*") as [i|] eqn:E.
  - assert (I := E). apply index_sound in E as (a & b & -> & L). change (a ++ #"*" ++ b) with (a ++ "*"%char :: b) in *.
    assert (Na : ~ In "*"%char a). { intros J. apply in_split in J as (x & y & ->). assert (Q : i <= length x) by (apply (index_first _ _ _ I x (y ++ "*"%char :: b)); rewrite <- app_assoc; reflexivity). rewrite app_length in L. cbn [length] in L. lia. }
    split.
    + intros H. destruct (S i =? _) eqn:Q1; [discriminate|]. destruct (i <? _) eqn:Q2; [discriminate|].
      apply Nat.eqb_neq in Q1. apply Nat.ltb_ge in Q2. rewrite app_length in *. cbn [length] in *.
      assert (length b = 1) by lia. destruct b as [|c [|]]; cbn [length] in *; try lia. clear Q1 Q2.
      destruct (negb _) eqn:Q3 in H; [discriminate|]. apply negb_false_iff in Q3. replace (length a + 2 - 1) with (length a + 1) in Q3 by lia.
      rewrite nth_error_app2 in Q3 by lia. replace (length a + 1 - length a) with 1 in Q3 by lia. cbn in Q3. apply eqc_eq in Q3. subst c.
      destruct ((_ <? 3) || _) eqn:Q4 in H; [discriminate|]. apply orb_false_iff in Q4 as [Q4 Q5]. apply Nat.ltb_ge in Q4. apply negb_false_iff in Q5.
      destruct a as [|d a _] using rev_ind; [cbn in Q4; lia|]. rewrite app_length in *. cbn [length] in *.
      replace (length a + 1 + 2 - 3) with (length a) in Q5 by lia. rewrite <- app_assoc, nth_error_app2, Nat.sub_diag in Q5 by lia. cbn in Q5. apply eqc_eq in Q5. subst d.
      injection H as <-. right. exists a. rewrite <- app_assoc. split; auto. split; [intros J; apply Na; apply in_or_app; now left|].
      replace (length a + 1 + 2 - 2) with (length (a ++ ["/"%char])) by (rewrite app_length; cbn; lia).
      rewrite app_assoc. change (["*"; "*"]%char) with (["*"; "*"]%char). rewrite firstn_app, Nat.sub_diag, firstn_all. cbn [firstn]. rewrite app_nil_r, <- app_assoc. reflexivity.
    + intros [[N _]|(r & R & Nr & ->)]; [exfalso; apply N; apply in_or_app; right; now left|].
      assert (A : a = r ++ ["/"%char] /\ b = ["*"%char]).
      { assert (X : forall (a : bytes) b x, ~ In "*"%char a -> ~ In "*"%char x -> forall y, a ++ "*"%char :: b = x ++ "*"%char :: y -> a = x /\ b = y).
        { clear. induction a as [|c a IH]; intros b x N M y E; destruct x as [|d x]; cbn [app] in E.
          - injection E as E2. auto.
          - injection E as E1 E2. exfalso. apply M. subst d. now left.
          - injection E as E1 E2. exfalso. apply N. subst c. now left.
          - injection E as E1 E2. destruct (IH b x) with (y := y) as [-> ->]; auto; [intros J; apply N; now right|intros J; apply M; now right|]. now subst. }
        apply (X a b (r ++ ["/"%char]) Na); [|rewrite <- app_assoc; exact R]. intros J. apply in_app_or in J as [J|[J|[]]]; [auto|discriminate]. }
      destruct A as [-> ->]. rewrite !app_length in *. cbn [length] in *.
      replace (S i =? length r + 1 + 2) with false by (symmetry; apply Nat.eqb_neq; lia).
      replace (i <? length r + 1 + 2 - 2) with false by (symmetry; apply Nat.ltb_ge; lia).
      replace (length r + 1 + 2 - 1) with (length (r ++ ["/"%char]) + 1) by (rewrite app_length; cbn; lia).
      rewrite nth_error_app2 by lia. replace (length (r ++ ["/"%char]) + 1 - length (r ++ ["/"%char])) with 1 by lia. cbn [nth_error]. rewrite eqc_refl. cbn [negb].
      replace (length r + 1 + 2 <? 3) with false by (symmetry; apply Nat.ltb_ge; lia). cbn [orb].
      replace (length r + 1 + 2 - 3) with (length r) by lia. rewrite <- app_assoc. rewrite nth_error_app2, Nat.sub_diag by lia. cbn [nth_error app]. rewrite eqc_refl. cbn [negb].
      f_equal. replace (length r + 1 + 2 - 2) with (length (r ++ ["/"%char])) by (rewrite app_length; cbn; lia).
      change (r ++ "/"%char :: ["*"; "*"]%char) with (r ++ ["/"%char] ++ ["*"; "*"]%char). rewrite app_assoc, firstn_app, Nat.sub_diag, firstn_all. cbn [firstn]. rewrite app_nil_r, <- app_assoc. reflexivity.
  - apply index_star in E. split; [intros H; injection H as <-; auto|]. intros [[_ ->]|(r & -> & _)]; auto. exfalso. apply E. apply in_or_app. right. right. now left.
Qed.
(** The packages of a rule: those of an include rule that is not about the main module. *)
Definition includes_others (r : rule) : Prop := r_main r <> Some true /\ r_action r = #"include".
Definition rule_packages (r : rule) (l : list bytes) : Prop :=
  (includes_others r /\ exists s, r_pkg r = Some s /\ list_items s l) \/ ((~ includes_others r \/ r_pkg r = None) /\ l = []).
(** Rules that exclude the functions (the variables) of the main module. *)
Definition excludes_main (kind : bytes) (r : rule) : Prop :=
  r_main r = Some true /\ r_action r = #"exclude" /\
  match r_kind r with None => True | Some s => exists l, list_items s l /\ (l = [] \/ In kind l) end.
Lemma load_pkgs_iff l qs : load_pkgs l = Some qs <-> Forall2 loads_as l qs.
Proof.
  split.
  - revert qs. induction l as [|p l IH]; intros qs H; cbn [load_pkgs] in H; [injection H as <-; constructor|].
    destruct (load_pkg p) eqn:E; [|discriminate]. destruct (load_pkgs l); [|discriminate]. injection H as <-. constructor; auto. now apply load_pkg_iff.
  - induction 1 as [|p q l qs P F IH]; auto. cbn [load_pkgs]. apply load_pkg_iff in P. now rewrite P, IH.
Qed.
Definition ex_b (kind : bytes) (r : rule) : bool :=
  match r_main r with Some true => eqs (r_action r) #"exclude" && ((length (opt_list (r_kind r)) =? 0) || existsb (eqs kind) (opt_list (r_kind r))) | _ => false end.
Lemma ex_b_iff kind r : ex_b kind r = true <-> excludes_main kind r.
Proof.
  unfold ex_b, excludes_main. destruct (r_main r) as [[|]|]; try (split; [discriminate|intros (E & _); discriminate]).
  rewrite andb_true_iff, orb_true_iff, eqs_eq, Nat.eqb_eq, length_zero_iff_nil, mem_iff. destruct (r_kind r) as [s|]; cbn [opt_list]; [|tauto].
  split; intros (A & B); split; auto.
  - split; auto. exists (split_comma_list s). split; [now apply split_comma_list_iff|auto].
  - destruct B as (B1 & l & L & B). exact B1.
  - destruct B as (B1 & l & L & B). apply split_comma_list_iff in L. now subst.
Qed.
Definition pk_b (r : rule) : list bytes :=
  match r_main r with Some true => [] | _ => if eqs (r_action r) #"include" then opt_list (r_pkg r) else [] end.
Lemma pk_b_iff r l : rule_packages r l <-> pk_b r = l.
Proof.
  unfold rule_packages, includes_others, pk_b.
  assert (O : forall l, (exists s, r_pkg r = Some s /\ list_items s l) \/ (r_pkg r = None /\ l = []) <-> opt_list (r_pkg r) = l).
  { intros l'. destruct (r_pkg r) as [s|]; cbn [opt_list]; [rewrite split_comma_list_iff|]; split.
    - intros [(x & E & L)|[E _]]; [now injection E as ->|discriminate]. - eauto.
    - intros [(x & E & _)|[_ ->]]; [discriminate|auto]. - intros <-. auto. }
  assert (A : forall x, eqs x #"include" = true <-> x = #"include") by (intros; apply eqs_eq).
  destruct (r_main r) as [[|]|].
  - split; [intros [[[N _] _]|[_ ->]]; congruence|]. intros <-. right. split; auto. left. intros [N _]. congruence.
  - destruct (eqs (r_action r) #"include") eqn:E.
    + apply A in E. rewrite <- O, E. split; [|intros [H|[H1 H2]]; [left; split; [split; [discriminate|auto]|auto]|right; auto]].
      intros [[_ H]|[[N|H] ->]]; auto. exfalso. apply N. split; [discriminate|auto].
    + assert (E' : r_action r <> #"include") by (rewrite <- A; congruence). split; [intros [[[_ X] _]|[_ ->]]; [contradiction|auto]|]. intros <-. right. split; auto. left. tauto.
  - destruct (eqs (r_action r) #"include") eqn:E.
    + apply A in E. rewrite <- O, E. split; [|intros [H|[H1 H2]]; [left; split; [split; [discriminate|auto]|auto]|right; auto]].
      intros [[_ H]|[[N|H] ->]]; auto. exfalso. apply N. split; [discriminate|auto].
    + assert (E' : r_action r <> #"include") by (rewrite <- A; congruence). split; [intros [[[_ X] _]|[_ ->]]; [contradiction|auto]|]. intros <-. right. split; auto. left. tauto.
Qed.
Lemma load_from_spec rules : forall ef ev pkgs,
  load_from rules ef ev pkgs =
  match load_pkgs (concat (map pk_b rules)) with
  | None => None
  | Some qs => Some (negb ((ef || existsb (ex_b #"func") rules) && (ev || existsb (ex_b #"var") rules)), pkgs ++ qs)
  end.
Proof.
  assert (App : forall a b, load_pkgs (a ++ b) = match load_pkgs a with None => None | Some x => match load_pkgs b with None => None | Some y => Some (x ++ y) end end).
  { clear. induction a as [|p a IH]; intros b; cbn [app load_pkgs]; [now destruct (load_pkgs b)|]. destruct (load_pkg p); auto. rewrite IH. destruct (load_pkgs a); auto. now destruct (load_pkgs b). }
  induction rules as [|r rules IH]; intros ef ev pkgs; cbn [load_from map concat existsb]; [cbn [load_pkgs]; now rewrite !orb_false_r, app_nil_r|].
  rewrite App. unfold ex_b at 1 3, pk_b at 1. destruct (r_main r) as [[|]|]; cbn [load_pkgs orb].
  - destruct (eqs (r_action r) #"exclude"); cbn [andb orb]; [destruct (length (opt_list (r_kind r)) =? 0); cbn [orb]|]; rewrite IH; destruct (load_pkgs (concat (map pk_b rules))); auto; rewrite ?orb_true_r, <- ?orb_assoc; auto.
  - destruct (eqs (r_action r) #"include"); cbn [negb load_pkgs].
    + destruct (load_pkgs (opt_list (r_pkg r))); auto. rewrite IH. destruct (load_pkgs (concat (map pk_b rules))); auto. now rewrite app_assoc.
    + rewrite IH. destruct (load_pkgs (concat (map pk_b rules))); auto.
  - destruct (eqs (r_action r) #"include"); cbn [negb load_pkgs].
    + destruct (load_pkgs (opt_list (r_pkg r))); auto. rewrite IH. destruct (load_pkgs (concat (map pk_b rules))); auto. now rewrite app_assoc.
    + rewrite IH. destruct (load_pkgs (concat (map pk_b rules))); auto.
Qed.
Theorem C65_loaded :
  forall rules main pkgs, get_load_packages rules = Some (main, pkgs) <->
    (exists ls, Forall2 rule_packages rules ls /\ Forall2 loads_as (concat ls) pkgs) /\
    (main = false <-> Exists (excludes_main #"func") rules /\ Exists (excludes_main #"var") rules).
Proof.
  intros rules main pkgs. unfold get_load_packages. rewrite load_from_spec. cbn [orb app].
  assert (P : forall ls, Forall2 rule_packages rules ls <-> map pk_b rules = ls).
  { clear. induction rules as [|r rules IH]; intros ls; cbn [map]; [split; [inversion 1; auto|intros <-; constructor]|].
    split; [inversion 1 as [|? l ? ls' R F]; subst; apply pk_b_iff in R; apply IH in F; now subst|]. intros <-. constructor; [now apply pk_b_iff|now apply IH]. }
  assert (X : forall k, existsb (ex_b k) rules = true <-> Exists (excludes_main k) rules).
  { intros k. rewrite existsb_exists, Exists_exists. split; intros (r & I & E); exists r; split; auto; now apply ex_b_iff. }
  assert (N : forall m : bool, m = negb (existsb (ex_b #"func") rules && existsb (ex_b #"var") rules) <-> (m = false <-> Exists (excludes_main #"func") rules /\ Exists (excludes_main #"var") rules)).
  { intros m. rewrite <- !X, <- andb_true_iff. destruct (existsb (ex_b #"func") rules && existsb (ex_b #"var") rules), m; cbn; intuition congruence. }
  rewrite <- N. split.
  - intros H. destruct (load_pkgs (concat (map pk_b rules))) as [qs|] eqn:L; [|discriminate]. injection H as <- <-. split; auto. exists (map pk_b rules). split; [now apply P|now apply load_pkgs_iff].
  - intros [(ls & F & L) ->]. apply P in F. subst ls. apply load_pkgs_iff in L. now rewrite L.
Qed.
Print Assumptions C65_loaded.
(** Excluding one name of the main module, or excluding it after a rule that includes its
    functions, keeps the whole module from being loaded although rules select parts of it. *)
Theorem C65_main_module_refuted :
  ~ (forall pat rules d main pkgs, d_main d = true -> match_rules pat rules d = #"include" -> get_load_packages rules = Some (main, pkgs) -> main = true) /\
  ~ (forall pat rules d main pkgs, d_main d = true -> match_rules pat rules d = [] -> get_load_packages rules = Some (main, pkgs) -> main = true).
Proof.
  split; intros H.
  - specialize (H eqs [rule_with (Some #"func") None None (Some true) #"include"; rule_with None None None (Some true) #"exclude"] (fn #"func" #"m" #"F" true) false []).
    assert (X := H eq_refl ltac:(vm_compute; reflexivity) ltac:(vm_compute; reflexivity)). discriminate X.
  - specialize (H eqs [rule_with None None (Some #"G") (Some true) #"exclude"] (fn #"func" #"m" #"F" true) false []).
    assert (X := H eq_refl ltac:(vm_compute; reflexivity) ltac:(vm_compute; reflexivity)). discriminate X.
Qed.
Print Assumptions C65_main_module_refuted.
(** Of other packages, one that the rules exclude first is loaded all the same, and one that
    a rule without package includes is not loaded. *)
Theorem C65_other_packages_refuted :
  ~ (forall pat rules p main pkgs, (forall d, d_pkg d = p -> match_rules pat rules d = #"exclude") -> get_load_packages rules = Some (main, pkgs) -> ~ In p pkgs) /\
  ~ (forall pat rules d main pkgs, d_main d = false -> match_rules pat rules d = #"include" -> get_load_packages rules = Some (main, pkgs) -> In (d_pkg d) pkgs).
Proof.
  split; intros H.
  - apply (H eqs [rule_with None (Some #"p") None None #"exclude"; rule_with None (Some #"p") None None #"include"] #"p" true [#"p"]); [|vm_compute; reflexivity|now left].
    intros d E. assert (R : match_rule eqs (rule_with None (Some #"p") None None #"exclude") d = true); [|cbn [match_rules]; rewrite R; reflexivity].
    apply C64_selection. right. split; [eexists; eapply (st_pkg _ _ _ #"p"); [reflexivity|now apply split_comma_list_iff|vm_compute; discriminate]|].
    intros c S. inversion S as [s l Q|s l Q L N|s l Q|b Q|b Q|b Q|b Q|b Q]; try discriminate Q. injection Q as <-. apply split_comma_list_iff in L. subst l. exists #"p". split; [now left|]. rewrite E. reflexivity.
  - specialize (H eqs [any_rule #"include"] (fn #"func" #"p" #"F" false) true [] eq_refl ltac:(vm_compute; reflexivity) ltac:(vm_compute; reflexivity)). destruct H.
Qed.
Print Assumptions C65_other_packages_refuted.
Example C65_example :
  get_load_packages [rule_with (Some #"func,var") None None (Some true) #"exclude"; rule_with None (Some #"a/b, c/**") None None #"include"; any_rule #"exclude"] = Some (false, [#"a/b"; #"c/..."]) /\
  get_load_packages [rule_with None (Some #"a/*") None None #"include"] = None.
Proof. vm_compute. auto. Qed.
