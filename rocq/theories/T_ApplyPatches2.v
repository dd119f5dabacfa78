(** * The commands of a patch directory (C91); an example for C90 *)
From Coq Require Import Ascii String List Arith Bool Lia Permutation.
From Verif Require Import M_Str M_Patch M_PatchFile M_ApplyPatches T_PatchFile T_ApplyPatches T_Patch2.
Import ListNotations.
Open Scope nat_scope. Open Scope list_scope.

(** ** C90: an example *)
Definition demo : list file :=
  [([#"src"; #"a.go.xgo.patch"], #"<patch p>
match x
insert_after y
</patch>"); ([#"__config__.json"], #"{}"); ([#"src"; #"a.go"], #"package x"); ([#"b.go.xgo.patch"], #"<patch q>
find_for_replace 1
replace 2
</patch>")].
Definition demo_root : fs := fun p => if eqp p [#"b.go"] then Some #"var a = 1" else if eqp p [#"c.go"] then Some #"package c" else None.
Lemma demo_ok : dir_ok demo.
Proof.
  split.
  - unfold demo. cbn [map fst]. repeat constructor; cbn; intuition discriminate.
  - intros p c I. unfold demo in I. cbn [In] in I. repeat (destruct I as [[= <- _]|I]; [split; [discriminate|repeat constructor; discriminate]|]). destruct I.
Qed.
Example C90_example :
  let '(g, ok) := apply_patch_files no_decls (fun _ => None) demo demo_root in
  ok = true /\ g [#"src"; #"a.go"] = Some #"package x/*<begin p>*/y/*<end p>*/" /\ g [#"b.go"] = Some #"var a = /*<begin q>*//*old:1*/2/*<end q>*/" /\ g [#"c.go"] = Some #"package c" /\ g [#"__config__.json"] = None.
Proof. vm_compute. auto. Qed.
Example C90_example_fits : patches_fit no_decls demo demo_root.
Proof.
  destruct (apply_patch_files no_decls (fun _ => None) demo demo_root) as [g ok] eqn:E.
  assert (ok = true) as -> by (pose proof C90_example as X; rewrite E in X; apply X). eapply C90_no_silent_failure; [apply demo_ok|exact E].
Qed.
(** A file that is patched in place is lost if writing it fails. *)
Theorem C90_write_failure_refuted : exists A io dir g p c, dir_ok dir /\ g p = Some c /\ (exists pc, patch_for dir p pc) /\ (forall x, ~ plain dir p x) /\
  fst (apply_patch_files A io dir g) p = None.
Proof.
  exists no_decls, (fun _ => Some None), demo, demo_root, [#"b.go"], #"var a = 1". split; [apply demo_ok|]. split; [reflexivity|]. split; [eexists; unfold patch_for, demo; cbn; eauto 6|]. split.
  - intros x (I & _). unfold demo in I. cbn [In] in I. repeat (destruct I as [I|I]; [discriminate I|]). destruct I.
  - vm_compute. reflexivity.
Qed.

(** ** C91: specification *)
Definition dollar : ascii := "$"%char.
Definition brace : ascii := "}"%char.
(** A text with variables. *)
Inductive piece := Text (t : bytes) | Ref (k : bytes).
Definition written (ps : list piece) : bytes := flat_map (fun p => match p with Text t => t | Ref k => #"${" ++ k ++ #"}" end) ps.
Definition piece_ok (p : piece) : Prop := match p with Text t => ~ In dollar t | Ref k => ~ In dollar k /\ ~ In brace k end.
(** Each variable replaced by its value, once. *)
Definition filled (value : bytes -> option bytes) (ps : list piece) : bytes :=
  flat_map (fun p => match p with Text t => t | Ref k => match value k with Some v => v | None => #"${" ++ k ++ #"}" end end) ps.
(** [value] is the map that is given in the order of [env]. *)
Definition is_map (env : list (bytes * bytes)) (value : bytes -> option bytes) : Prop := forall k v, value k = Some v <-> In (k, v) env.
Definition env_ok (env : list (bytes * bytes)) : Prop := forall k v, In (k, v) env -> ~ In dollar k /\ ~ In brace k /\ ~ In dollar v.

(** The value of a variable for a process: that of its last entry (os/exec drops the others). *)
Definition has_value (env : list bytes) (k v : bytes) : Prop :=
  exists a b, env = a ++ (k ++ #"=" ++ v) :: b /\ forall e w, In e b -> e <> k ++ #"=" ++ w.
Definition set_by_xgo (goroot : bytes) : list (bytes * bytes) :=
  [(#"GOROOT", goroot); (#"GOTOOLCHAIN", #"local"); (#"GOOS", []); (#"GOARCH", []); (#"GOPATH", []); (#"GOCACHE", [])].

(** ** Proofs *)
Lemma past x y a z : ~ In dollar x -> x ++ y = a ++ dollar :: z -> exists a', a = x ++ a' /\ y = a' ++ dollar :: z.
Proof.
  revert a. induction x as [|c x IH]; intros a N E; [exists a; auto|]. destruct a as [|d a].
  - cbn in E. injection E as -> _. exfalso. apply N. now left.
  - cbn in E. injection E as -> E. destruct (IH a) as (a' & -> & Q); auto; [intros I; apply N; now right|]. exists a'. auto.
Qed.
Lemma braced k : ~ In dollar k -> ~ In dollar (#"{" ++ k ++ #"}").
Proof. intros N I. apply in_app_iff in I as [[X|[]]|I]; [discriminate X|]. apply in_app_iff in I as [I|[X|[]]]; [contradiction|discriminate X]. Qed.
Lemma until_brace x y a z : ~ In brace x -> ~ In brace a -> x ++ brace :: y = a ++ brace :: z -> x = a.
Proof.
  revert a. induction x as [|c x IH]; intros [|d a] Nx Na E; auto; cbn in E; injection E; intros E1 E2; subst; try (exfalso; (apply Nx + apply Na); now left).
  f_equal. eapply IH; eauto; intros I; [apply Nx|apply Na]; now right.
Qed.
Lemma no_ref k ps : Forall piece_ok ps -> ~ In dollar k -> ~ In brace k -> ~ In (Ref k) ps -> ~ holds (written ps) (ref k).
Proof.
  intros F Kd Kb. induction F as [|p ps O F IH]; intros N (a & b & E).
  - cbn in E. destruct a; discriminate.
  - assert (N' : ~ In (Ref k) ps) by (intros I; apply N; now right). specialize (IH N'). apply IH. unfold written in E. cbn [flat_map] in E. fold (written ps) in E. unfold ref in E. change (#"${" ++ k ++ #"}") with (dollar :: #"{" ++ k ++ #"}") in E.
    change ((dollar :: #"{" ++ k ++ #"}") ++ b) with (dollar :: (#"{" ++ k ++ #"}") ++ b) in E. destruct p as [t|k'].
    + apply past in E as (a' & -> & E); [|exact O]. exists a', b. exact E.
    + destruct O as [Od Ob]. change (#"${" ++ k' ++ #"}") with (dollar :: #"{" ++ k' ++ #"}") in E. change ((dollar :: #"{" ++ k' ++ #"}") ++ written ps) with (dollar :: (#"{" ++ k' ++ #"}") ++ written ps) in E.
      destruct a as [|d a].
      * exfalso. apply N. left. f_equal. injection E as E. rewrite <- !app_assoc in E. eapply until_brace; eauto.
      * assert (E' : (#"{" ++ k' ++ #"}") ++ written ps = a ++ dollar :: (#"{" ++ k ++ #"}") ++ b) by (injection E; auto). clear E. rename E' into E. apply past in E as (a' & -> & E); [exists a', b; exact E|]. now apply braced.
Qed.
Definition eq_piece (p : piece) (k : bytes) : bool := match p with Ref k' => eqs k' k | Text _ => false end.
Definition set (k v : bytes) (ps : list piece) : list piece := map (fun p => if eq_piece p k then Text v else p) ps.
Lemma first_ref k ps : ~ In (Ref k) ps \/ exists p1 p2, ps = p1 ++ Ref k :: p2 /\ ~ In (Ref k) p1.
Proof.
  induction ps as [|p ps [N|(p1 & p2 & -> & N)]]; [left; intros []| |].
  - destruct (eq_piece p k) eqn:E.
    + right. destruct p as [|k']; [discriminate|]. apply eqs_eq in E. subst k'. exists [], ps. auto.
    + left. intros [->|I]; [cbn in E; rewrite eqs_refl in E; discriminate|auto].
  - right. destruct (eq_piece p k) eqn:E.
    + destruct p as [|k']; [discriminate|]. apply eqs_eq in E. subst k'. exists [], (p1 ++ Ref k :: p2). auto.
    + exists (p :: p1), p2. split; [reflexivity|]. intros [->|I]; [cbn in E; rewrite eqs_refl in E; discriminate|auto].
Qed.
Lemma set_none k v ps : ~ In (Ref k) ps -> set k v ps = ps.
Proof.
  intros N. unfold set. rewrite <- (map_id ps) at 2. apply map_ext_in. intros p I. destruct (eq_piece p k) eqn:E; [|reflexivity]. destruct p as [|k']; [discriminate|]. apply eqs_eq in E. subst. contradiction.
Qed.
Lemma replace_ref k v : ~ In dollar k -> ~ In brace k -> forall n ps fuel, length ps <= n -> Forall piece_ok ps -> length (written ps) < fuel -> replace_all fuel (written ps) (ref k) v = written (set k v ps).
Proof.
  intros Kd Kb. induction n as [|n IH]; intros ps fuel Ln F Lf.
  - destruct ps; [|cbn in Ln; lia]. destruct fuel; [cbn in Lf; lia|]. reflexivity.
  - destruct fuel as [|fuel]; [lia|]. cbn [replace_all]. destruct (first_ref k ps) as [N|(p1 & p2 & -> & N)].
    + pose proof (no_ref k ps F Kd Kb N) as H. apply index_none_iff in H. rewrite H. now rewrite set_none.
    + apply Forall_app in F as [F1 F2]. inversion F2 as [|? ? _ F3]; subst. assert (E : written (p1 ++ Ref k :: p2) = written p1 ++ ref k ++ written p2) by (unfold written; rewrite flat_map_app; reflexivity). rewrite E in *.
      rewrite index_first_after; [|discriminate|].
      2:{ change (ref k) with (dollar :: #"{" ++ k ++ #"}"). apply first_after_simple; [|exact (no_ref k p1 F1 Kd Kb N)]. now apply braced. }
      destruct (split_at (written p1) (ref k) (written p2)) as [-> ->]. rewrite IH; auto.
      * unfold set. rewrite map_app. cbn [map eq_piece]. rewrite eqs_refl. fold (set k v p1). fold (set k v p2). rewrite (set_none k v p1 N). unfold written. rewrite flat_map_app. reflexivity.
      * rewrite app_length in Ln. cbn in Ln. lia.
      * rewrite !app_length in Lf. assert (0 < length (ref k)) by (cbn; lia). lia.
Qed.
Lemma set_ok k v ps : ~ In dollar v -> Forall piece_ok ps -> Forall piece_ok (set k v ps).
Proof. intros V F. unfold set. apply Forall_map. eapply Forall_impl; [|exact F]. intros p O. cbn. destruct (eq_piece p k); auto. Qed.
Definition get (env : list (bytes * bytes)) (k : bytes) : option bytes := match find (fun kv => eqs (fst kv) k) env with Some kv => Some (snd kv) | None => None end.
Lemma substitute_filled env : forall ps, env_ok env -> Forall piece_ok ps -> NoDup (map fst env) -> substitute (written ps) env = filled (get env) ps.
Proof.
  induction env as [|[k v] env IH]; intros ps O F N; [reflexivity|]. cbn [substitute]. destruct (O k v (or_introl eq_refl)) as (Kd & Kb & Vd). inversion N as [|? ? Ni Nd]; subst.
  rewrite (replace_ref k v Kd Kb (length ps)) by (auto; lia). rewrite IH; auto; [|intros x y I; apply (O x y); now right|now apply set_ok].
  unfold filled, set. rewrite flat_map_concat_map, map_map, <- flat_map_concat_map. apply flat_map_ext. intros [t|k']; [reflexivity|]. cbn [eq_piece]. unfold get. cbn [find fst].
  destruct (eqs k' k) eqn:E.
  - apply eqs_eq in E. subst k'. rewrite eqs_refl. reflexivity.
  - destruct (eqs k k') eqn:E2; [apply eqs_eq in E2; subst; rewrite eqs_refl in E; discriminate|]. reflexivity.
Qed.
Lemma get_map env value : NoDup (map fst env) -> is_map env value -> forall k, get env k = value k.
Proof.
  intros N M k. unfold get. destruct (find (fun kv => eqs (fst kv) k) env) as [[k' v]|] eqn:E.
  - apply find_some in E as [I E]. cbn in E. apply eqs_eq in E. subst k'. symmetry. apply M. exact I.
  - destruct (value k) as [v|] eqn:V; [|reflexivity]. apply M in V. apply (find_none _ _ E) in V. cbn in V. now rewrite eqs_refl in V.
Qed.
Lemma value_unique (env : list (bytes * bytes)) k a b : NoDup (map fst env) -> In (k, a) env -> In (k, b) env -> a = b.
Proof.
  induction env as [|[q c] env IH]; intros N; [intros []|]. inversion N; subst. intros [E|I] [F|J].
  - congruence.
  - injection E as -> ->. exfalso. apply (in_map fst) in J. contradiction.
  - injection F as -> ->. exfalso. apply (in_map fst) in I. contradiction.
  - auto.
Qed.
(** ** C91: theorems *)
(** Whatever the order in which Go goes through the map of variables, each variable is replaced by its value and nothing else changes: as long as the values, and the text between the variables, have no dollar sign. *)
Theorem C91_substitution env value ps :
  NoDup (map fst env) -> is_map env value -> env_ok env -> Forall piece_ok ps -> substitute (written ps) env = filled value ps.
Proof.
  intros N M O F. rewrite substitute_filled by auto. unfold filled. apply flat_map_ext. intros [t|k]; [reflexivity|]. now rewrite (get_map env value N M).
Qed.
Theorem C91_any_order env env' ps :
  NoDup (map fst env) -> Permutation env env' -> env_ok env -> Forall piece_ok ps -> substitute (written ps) env = substitute (written ps) env'.
Proof.
  intros N P O F. assert (N' : NoDup (map fst env')) by (eapply Permutation_NoDup; [apply Permutation_map; exact P|exact N]).
  assert (M : is_map env (get env)).
  { intros k v. unfold get. split.
    - intros H. destruct (find _ env) as [[k' w]|] eqn:E; [|discriminate]. injection H as <-. apply find_some in E as [I E]. cbn in E. apply eqs_eq in E. now subst.
    - intros I. destruct (find (fun kv => eqs (fst kv) k) env) as [[k' w]|] eqn:E.
      + apply find_some in E as [J E]. cbn in E. apply eqs_eq in E. subst k'. f_equal. exact (value_unique env k w v N J I).
      + apply (find_none _ _ E) in I. cbn in I. now rewrite eqs_refl in I. }
  rewrite (C91_substitution env (get env)) by auto. symmetry. apply C91_substitution; auto.
  - intros k v. split; intros H; [apply M in H; eapply Permutation_in; eauto|apply M; eapply Permutation_in; [symmetry; exact P|exact H]].
  - intros k v I. apply O. eapply Permutation_in; [symmetry; exact P|exact I].
Qed.
(** With a dollar sign in a value the result depends on that order. *)
Theorem C91_any_order_refuted : exists env env' ps,
  NoDup (map fst env) /\ Permutation env env' /\ Forall piece_ok ps /\ substitute (written ps) env <> substitute (written ps) env'.
Proof.
  exists [(#"A", #"${B}"); (#"B", #"x")], [(#"B", #"x"); (#"A", #"${B}")], [Ref #"A"]. split; [repeat constructor; cbn; intuition discriminate|]. split; [apply perm_swap|]. split.
  - repeat constructor; cbn; intuition discriminate.
  - vm_compute. discriminate.
Qed.
Definition vars : list (bytes * bytes) := [(#"XGO_SRC", #"/xgo"); (#"INSTRUMENT_GOROOT", #"/g o"); (#"GOOS", #"linux")].
Definition text : list piece := [Ref #"INSTRUMENT_GOROOT"; Text #"/bin/go"; Ref #"HOME"; Ref #"GOOS"].
Example C91_example : substitute (written text) vars = #"/g o/bin/go${HOME}linux" /\ NoDup (map fst vars) /\ env_ok vars /\ Forall piece_ok text.
Proof.
  split; [vm_compute; reflexivity|]. split; [repeat constructor; cbn; intuition discriminate|]. split.
  - intros k v I. unfold vars in I. cbn [In] in I. repeat (destruct I as [[= <- <-]|I]; [repeat split; intros X; cbn in X; intuition discriminate|]). destruct I.
  - repeat constructor; cbn; intuition discriminate.
Qed.

(** ** The environment of a command *)
Lemma key_eq (k k' v v' : bytes) : ~ In "="%char k -> ~ In "="%char k' -> k ++ #"=" ++ v = k' ++ #"=" ++ v' -> k = k' /\ v = v'.
Proof.
  revert k'. induction k as [|c k IH]; intros [|d k'] N N' E; cbn in E; injection E; intros; subst; auto; try (exfalso; (apply N + apply N'); now left).
  destruct (IH k') as [-> ->]; auto; intros I; [apply N|apply N']; now right.
Qed.
Lemma has_value_app_r a b k v : has_value b k v -> has_value (a ++ b) k v.
Proof. intros (x & y & -> & N). exists (a ++ x), y. split; [now rewrite <- app_assoc|exact N]. Qed.
Lemma has_value_app_l a b k v : (forall e w, In e b -> e <> k ++ #"=" ++ w) -> (has_value (a ++ b) k v <-> has_value a k v).
Proof.
  intros Nb. split.
  - intros (x & y & E & N). revert x E. induction a as [|c a IH]; intros x E.
    + exfalso. cbn in E. apply (Nb (k ++ #"=" ++ v) v); [rewrite E; apply in_elt|reflexivity].
    + destruct x as [|d x]; cbn in E.
      * injection E as -> <-. exists [], a. split; [reflexivity|]. intros e w I. apply N. apply in_or_app. now left.
      * injection E as -> E. destruct (IH x E) as (x' & y' & -> & N'). exists (d :: x'), y'. split; [reflexivity|exact N'].
  - intros (x & y & -> & N). exists x, (y ++ b). split; [now rewrite <- app_assoc|]. intros e w I. apply in_app_iff in I as [I|I]; eauto.
Qed.
Lemma pairs_value (kvs : list (bytes * bytes)) k v : NoDup (map fst kvs) -> (forall x y, In (x, y) kvs -> ~ In "="%char x) -> In (k, v) kvs -> has_value (map (fun kv => fst kv ++ #"=" ++ snd kv) kvs) k v.
Proof.
  intros N O I. apply in_split in I as (a & b & ->). exists (map (fun kv => fst kv ++ #"=" ++ snd kv) a), (map (fun kv => fst kv ++ #"=" ++ snd kv) b). split; [now rewrite map_app|].
  intros e w J E. apply in_map_iff in J as ([k' v'] & <- & J). cbn [fst snd] in E. apply key_eq in E as [-> _].
  - rewrite map_app in N. apply NoDup_remove_2 in N. apply N. apply in_or_app. right. apply (in_map fst) in J. exact J.
  - apply (O k' v'). apply in_or_app. right. now right.
  - apply (O k v). apply in_elt.
Qed.
Lemma pairs_none (kvs : list (bytes * bytes)) k : ~ In "="%char k -> (forall x y, In (x, y) kvs -> ~ In "="%char x) -> ~ In k (map fst kvs) -> forall e w, In e (map (fun kv => fst kv ++ #"=" ++ snd kv) kvs) -> e <> k ++ #"=" ++ w.
Proof.
  intros Nk O N e w J E. apply in_map_iff in J as ([k' v'] & <- & J). cbn [fst snd] in E. apply key_eq in E as [-> _]; auto; [|now apply (O k' v')]. apply N. apply (in_map fst) in J. exact J.
Qed.
Lemma filter_value f env k v : (forall e w, In e env -> e = k ++ #"=" ++ w -> f e = true) -> (has_value (filter f env) k v <-> has_value env k v).
Proof.
  induction env as [|c env IH]; intros H; [reflexivity|]. cbn [filter].
  assert (IH' : has_value (filter f env) k v <-> has_value env k v) by (apply IH; intros; apply (H e w); auto; now right).
  assert (Cons : forall (c : bytes) l, (has_value (c :: l) k v <-> has_value l k v \/ (c = k ++ #"=" ++ v /\ forall e w, In e l -> e <> k ++ #"=" ++ w))).
  { intros d l. split.
    - intros (x & y & E & N). destruct x as [|x0 x]; cbn in E; injection E as -> ->; [right; auto|left; exists x, y; auto].
    - intros [V|[-> N]]; [now apply (has_value_app_r [d])|exists [], l; auto]. }
  destruct (f c) eqn:Fc.
  - rewrite !Cons, IH'. split; (intros [V|[E N]]; [now left|right; split; auto]).
    + intros e w I Q. apply (N e w); auto. apply filter_In. split; auto. apply (H e w); auto. now right.
    + intros e w I. apply filter_In in I as [I _]. now apply N.
  - rewrite Cons, IH'. split; [now left|]. intros [V|[E N]]; auto. exfalso. assert (f c = true) by (apply (H c v); auto; now left). congruence.
Qed.
(** The command sees its own variables, then those that xgo sets, then those of xgo's own environment. *)
Theorem C91_environment environ goroot env k v :
  NoDup (map fst env) -> (forall x y, In (x, y) env -> ~ In "="%char x) -> ~ In "="%char k ->
  (In (k, v) env -> has_value (command_env environ goroot env) k v) /\
  (~ In k (map fst env) -> In (k, v) (set_by_xgo goroot) -> has_value (command_env environ goroot env) k v) /\
  (~ In k (map fst env) -> ~ In k (map fst (set_by_xgo goroot)) -> (has_value (command_env environ goroot env) k v <-> has_value environ k v)).
Proof.
  intros N O Nk. unfold command_env.
  change [#"GOROOT=" ++ goroot; #"GOTOOLCHAIN=local"; #"GOOS="; #"GOARCH="; #"GOPATH="; #"GOCACHE="] with (map (fun kv : bytes * bytes => fst kv ++ #"=" ++ snd kv) (set_by_xgo goroot)).
  assert (Os : forall x y, In (x, y) (set_by_xgo goroot) -> ~ In "="%char x).
  { intros x y I J. apply containsc_in in J. unfold set_by_xgo in I. cbn [In] in I. repeat (destruct I as [[= <- _]|I]; [vm_compute in J; discriminate|]). destruct I. }
  assert (Ns : NoDup (map fst (set_by_xgo goroot))) by (cbn [map fst set_by_xgo]; repeat constructor; cbn; intuition discriminate).
  split; [|split; [|intros Nn Nx; split]].
  - intros I. do 2 apply has_value_app_r. now apply pairs_value.
  - intros Nn I. apply has_value_app_r. apply has_value_app_l; [now apply pairs_none|]. now apply pairs_value.
  - intros H. rewrite app_assoc in H. apply has_value_app_l in H; [|now apply pairs_none]. apply has_value_app_l in H; [|now apply pairs_none]. apply filter_value in H; auto.
    intros e w I ->. apply negb_true_iff. apply not_true_iff_false. intros Q. rewrite !orb_true_iff, !has_prefix_iff in Q.
    assert (D : forall kk r, ~ In "="%char kk -> In kk (map fst (set_by_xgo goroot)) -> k ++ #"=" ++ w <> kk ++ #"=" ++ r) by (intros kk r Hk Hi E; apply key_eq in E as [-> _]; auto).
    destruct Q as [[[r Q]|[r Q]]|[r Q]]; [apply (D #"GOROOT" r)|apply (D #"GOCACHE" r)|apply (D #"GOPATH" r)]; auto; try (intros J; apply containsc_in in J; vm_compute in J; discriminate); cbn; auto 8.
  - intros H. rewrite app_assoc. apply has_value_app_l; [now apply pairs_none|]. apply has_value_app_l; [now apply pairs_none|]. apply filter_value; auto.
    intros e w I ->. apply negb_true_iff. apply not_true_iff_false. intros Q. rewrite !orb_true_iff, !has_prefix_iff in Q.
    assert (D : forall kk r, ~ In "="%char kk -> In kk (map fst (set_by_xgo goroot)) -> k ++ #"=" ++ w <> kk ++ #"=" ++ r) by (intros kk r Hk Hi E; apply key_eq in E as [-> _]; auto).
    destruct Q as [[[r Q]|[r Q]]|[r Q]]; [apply (D #"GOROOT" r)|apply (D #"GOCACHE" r)|apply (D #"GOPATH" r)]; auto; try (intros J; apply containsc_in in J; vm_compute in J; discriminate); cbn; auto 8.
Qed.

(** ** What is done *)
Section Actions.
Variables (windows : bool) (skip : list bytes) (extra : list (bytes * bytes)) (environ : list bytes) (goroot : bytes).
Definition skipped (g : generate) : Prop := g_kind g <> [] /\ In (g_kind g) skip.
(** The command of an entry: the one for windows, on windows, if there is one. *)
Definition command_of (g : generate) (c : list bytes) : Prop :=
  (windows = true /\ g_cmd_windows g <> [] /\ c = g_cmd_windows g) \/ ((windows = false \/ g_cmd_windows g = []) /\ c = g_cmd g).
Inductive asks (g : generate) : list action -> Prop :=
| asks_skipped : skipped g -> asks g []
| asks_handler : ~ skipped g -> g_kind g <> [] -> g_cmd g = [] -> g_cmd_windows g = [] -> asks g [Handle (g_kind g)]
| asks_nothing : ~ skipped g -> command_of g [] -> (g_kind g = [] \/ g_cmd_windows g <> []) -> asks g []
| asks_run c : ~ skipped g -> command_of g c -> c <> [] ->
    asks g [Run (map (fun a => substitute a extra) c) (resolve_cwd (g_cwd g) extra) (command_env environ goroot (g_env g))].
Lemma skip_iff g : should_skip (g_kind g) skip = true <-> skipped g.
Proof.
  unfold should_skip, skipped. destruct (g_kind g) as [|c k]; [split; [discriminate|intros [[] _]; reflexivity]|]. rewrite existsb_exists. split.
  - intros (x & I & E). apply eqs_eq in E. subst. split; [discriminate|auto].
  - intros [_ I]. exists (c :: k). split; auto. apply eqs_refl.
Qed.
Lemma effective_iff g c : effective windows g = c <-> command_of g c.
Proof.
  unfold effective, command_of. destruct windows; [destruct (g_cmd_windows g) as [|w ws] eqn:W|]; split; intros H; subst; auto.
  - destruct H as [(_ & [] & _)|[_ ->]]; reflexivity.
  - left. repeat split; auto; discriminate.
  - destruct H as [(_ & _ & ->)|[[X|X] _]]; [reflexivity|discriminate|discriminate].
  - destruct H as [(X & _)|[_ ->]]; [discriminate|reflexivity].
Qed.
Lemma entry_none handler g : entry windows skip extra environ goroot handler g = None -> asks g [].
Proof.
  unfold entry. destruct (should_skip _ _) eqn:S; [intros _; apply asks_skipped; now apply skip_iff|]. assert (Ns : ~ skipped g) by (rewrite <- skip_iff, S; discriminate).
  destruct (g_kind g) as [|c k] eqn:K; [|destruct (g_cmd g) as [|a l] eqn:C; [destruct (g_cmd_windows g) as [|b m] eqn:W|]]; intros H; try (destruct handler; discriminate).
  - destruct (map _ _) as [|a l] eqn:M; [|discriminate]. apply map_eq_nil in M. apply asks_nothing; auto. now apply effective_iff.
  - destruct (map _ _) as [|a l] eqn:M; [|discriminate]. apply map_eq_nil in M. apply asks_nothing; auto; [now apply effective_iff|]. right. rewrite W. discriminate.
  - destruct (map _ _) as [|a' l'] eqn:M; [|discriminate]. apply map_eq_nil in M. apply asks_nothing; auto; [now apply effective_iff|]. right. intros W. apply effective_iff in M. destruct M as [(_ & X & _)|[_ X]]; [congruence|]. rewrite C in X. discriminate.
Qed.
Lemma entry_some handler g a : entry windows skip extra environ goroot handler g = Some (Some a) -> asks g [a] /\ (handler = true \/ forall k, a <> Handle k).
Proof.
  unfold entry. destruct (should_skip _ _) eqn:S; [discriminate|]. assert (Ns : ~ skipped g) by (rewrite <- skip_iff, S; discriminate).
  assert (R : forall args, map (fun a => substitute a extra) (effective windows g) = args -> args <> [] -> asks g [Run args (resolve_cwd (g_cwd g) extra) (command_env environ goroot (g_env g))]).
  { intros args <- Na. apply asks_run; auto; [now apply effective_iff|]. intros E. apply Na. now rewrite E. }
  destruct (g_kind g) as [|c k] eqn:K; [|destruct (g_cmd g) as [|x l] eqn:C; [destruct (g_cmd_windows g) as [|b m] eqn:W|]]; intros H;
    try (destruct (map _ _) as [|y z] eqn:M; [discriminate|]; injection H as <-; split; [apply R; [first [exact M|reflexivity]|discriminate]|right; intros ? Q; discriminate Q]).
  destruct handler; [|discriminate]. injection H as <-. split; [|now left]. rewrite <- K. apply asks_handler; auto. rewrite K. discriminate.
Qed.
Lemma entry_error handler g : entry windows skip extra environ goroot handler g = Some None -> handler = false /\ asks g [Handle (g_kind g)].
Proof.
  unfold entry. destruct (should_skip _ _) eqn:S; [discriminate|]. assert (Ns : ~ skipped g) by (rewrite <- skip_iff, S; discriminate).
  destruct (g_kind g) as [|c k] eqn:K; [|destruct (g_cmd g) as [|x l] eqn:C; [destruct (g_cmd_windows g) as [|b m] eqn:W|]]; intros H;
    try (destruct (map _ _) as [|y z] eqn:M; discriminate).
  destruct handler; [discriminate|]. split; auto. rewrite <- K. apply asks_handler; auto. rewrite K. discriminate.
Qed.
(** All is done in order, and it ends well only if all went well; else what was done is what the first entries ask for, up to the action that failed (or that has no handler). *)
Theorem C91_actions handler succeeds l acts ok :
  generate_all windows skip extra environ goroot handler succeeds l = (acts, ok) ->
  if ok then exists per, Forall2 asks l per /\ acts = concat per /\ Forall (fun a => succeeds a = true) acts
  else exists l1 g l2 per a, l = l1 ++ g :: l2 /\ Forall2 asks l1 per /\ Forall (fun a => succeeds a = true) (concat per) /\ asks g [a] /\
       ((acts = concat per ++ [a] /\ succeeds a = false) \/ (acts = concat per /\ handler = false /\ exists k, a = Handle k)).
Proof.
  revert acts ok. induction l as [|g l IH]; intros acts ok H; cbn [generate_all] in H.
  - injection H as <- <-. exists []. repeat split; auto.
  - destruct (entry windows skip extra environ goroot handler g) as [[a|]|] eqn:E.
    + apply entry_some in E as [As _]. destruct (succeeds a) eqn:Sa.
      * destruct (generate_all windows skip extra environ goroot handler succeeds l) as [acts' ok'] eqn:G. injection H as <- <-. specialize (IH _ _ eq_refl). destruct ok'.
        -- destruct IH as (per & F & -> & Fs). exists ([a] :: per). repeat split; auto.
        -- destruct IH as (l1 & g' & l2 & per & b & -> & F & Fs & Ag & Q). exists (g :: l1), g', l2, ([a] :: per), b. split; [reflexivity|]. split; [auto|]. split; [cbn; auto|]. split; [auto|]. destruct Q as [[-> Sb]|(-> & Hh & Hk)]; [left|right]; auto.
      * injection H as <- <-. exists [], g, l, [], a. split; [reflexivity|]. split; [constructor|]. split; [constructor|]. split; [auto|]. left. auto.
    + injection H as <- <-. apply entry_error in E as [Hh As]. exists [], g, l, [], (Handle (g_kind g)). split; [reflexivity|]. split; [constructor|]. split; [constructor|]. split; [auto|]. right. split; [reflexivity|]. split; [auto|]. eauto.
    + apply entry_none in E. specialize (IH _ _ H). destruct ok.
      * destruct IH as (per & F & -> & Fs). exists ([] :: per). repeat split; auto.
      * destruct IH as (l1 & g' & l2 & per & b & -> & F & Fs & Ag & Q). exists (g :: l1), g', l2, ([] :: per), b. split; [reflexivity|]. split; [auto|]. auto.
Qed.
End Actions.
Definition gens : list generate :=
  [{| g_kind := #"mkbuiltin"; g_cmd := []; g_cmd_windows := []; g_cwd := []; g_env := [] |};
   {| g_kind := #"rebuild-go"; g_cmd := [#"go"; #"build"]; g_cmd_windows := []; g_cwd := []; g_env := [] |};
   {| g_kind := []; g_cmd := [#"${GOROOT}/bin/go"; #"version"]; g_cmd_windows := []; g_cwd := #"src"; g_env := [(#"GOOS", #"js")] |}].
Example C91_actions_example :
  fst (generate_all false [#"rebuild-go"] [(#"GOROOT", #"/g")] [#"HOME=/h"; #"GOROOT=/old"] #"/g" true (fun _ => true) gens) =
  [Handle #"mkbuiltin"; Run [#"/g/bin/go"; #"version"] (Under_goroot #"src") [#"HOME=/h"; #"GOROOT=/g"; #"GOTOOLCHAIN=local"; #"GOOS="; #"GOARCH="; #"GOPATH="; #"GOCACHE="; #"GOOS=js"]].
Proof. vm_compute. reflexivity. Qed.
(** ** What patching means, and where commands run *)
(** Patching a text with a patch file: reading the file (C89), then applying its blocks (C32, C46). *)
Theorem C90_patching A c pc r : patch_content A c pc = Some r <-> exists bs, doc pc bs /\ apply_blocks A c bs = Some r.
Proof.
  unfold patch_content. split.
  - destruct (parse_patch pc) as [bs|] eqn:P; [|discriminate]. intros H. exists bs. split; [now apply C89_read_as_written|exact H].
  - intros (bs & D & H). apply C89_read_as_written in D. now rewrite D.
Qed.
(** The directory of a command: the GOROOT if none is given, the given one if it is absolute, else one below the GOROOT. *)
Theorem C91_directory cwd env : exists s, s = substitute cwd env /\
  ((s = [] /\ resolve_cwd cwd env = At_goroot) \/
   (exists t, s = "/"%char :: t /\ resolve_cwd cwd env = At_absolute s) \/
   (exists c t, s = c :: t /\ c <> "/"%char /\ resolve_cwd cwd env = Under_goroot s)).
Proof.
  exists (substitute cwd env). split; [reflexivity|]. unfold resolve_cwd. destruct (substitute cwd env) as [|c t]; [auto|]. right. destruct (has_prefix (c :: t) #"/") eqn:H.
  - left. apply has_prefix_sound in H as [r H]. exists r. split; [exact H|reflexivity].
  - right. exists c, t. repeat split. intros ->. assert (has_prefix ("/"%char :: t) #"/" = true) by (apply has_prefix_iff; exists t; reflexivity). congruence.
Qed.
