(** * The project's copy of the runtime, from run to run (C105) *)
From Coq Require Import Ascii String List Arith Bool Lia.
From Verif Require Import M_Str P_Str M_Coverage M_Link T_Link.
Import ListNotations.
Open Scope nat_scope.
Open Scope list_scope.

(** ** Specification *)
(** what xgo brings: each file once, [go.mod] under the name [go.mod.txt], and the flags off *)
Record shipped (embed : dir) : Prop := {
  s_once : NoDup (map fst embed);
  s_mod : lookup go_mod_txt embed <> None;
  s_nomod : lookup go_mod embed = None;
  s_trace : lookup trace_go embed <> None;
  s_version : exists c, lookup version_go embed = Some c /\ tidy_file c;
  s_flags : exists c, lookup flags_go embed = Some c /\ tidy_file c
    /\ value #"COLLECT_TEST_TRACE" c = Some #"false" /\ value #"COLLECT_TEST_TRACE_DIR" c = Some (dq ++ dq) /\ value #"XGO_RACE_SAFE" c = Some #"false"
}.
(** what this run of this xgo, with these options, must compile *)
Definition expected (embed : dir) (x : xgo) (o : opts) (p : bytes) : option bytes :=
  if eqs p go_mod_txt then None
  else if eqs p go_mod then lookup go_mod_txt embed
  else if eqs p version_go then option_map (fun c => ReplaceActualXgoVersion c (x_version x) (x_revision x) (x_number x)) (lookup version_go embed)
  else if eqs p flags_go then option_map (fun c => InjectFlags c (o_trace o) (o_dir_quoted o) (o_race o)) (lookup flags_go embed)
  else lookup p embed.
(** names that can be written in a Go source, and the empty directory written as two quotes *)
Definition plain_x (x : xgo) : Prop := writable (x_version x) /\ writable (x_revision x) /\ writable (x_number x).
Definition plain_o (o : opts) : Prop := writable (o_dir_quoted o) /\ (o_dir o = [] -> o_dir_quoted o = dq ++ dq).

(** ** Files *)
Lemma eqs_sym a b : eqs a b = eqs b a.
Proof. destruct (eqs a b) eqn:E; [apply eqs_eq in E; subst; now rewrite eqs_refl|]. destruct (eqs b a) eqn:E2; auto. apply eqs_eq in E2. subst. rewrite eqs_refl in E. discriminate. Qed.
Lemma lookup_remove p q d : lookup p (remove q d) = if eqs q p then None else lookup p d.
Proof.
  unfold remove. induction d as [|[r c] d IH]; [cbn; now destruct (eqs q p)|]. cbn [filter fst lookup]. destruct (eqs r q) eqn:E; cbn [negb].
  - apply eqs_eq in E. subst r. rewrite IH. now destruct (eqs q p).
  - cbn [lookup]. rewrite IH. destruct (eqs r p) eqn:E2; auto. apply eqs_eq in E2. subst r. rewrite eqs_sym. now rewrite E.
Qed.
Lemma lookup_put p q c d : lookup p (apply_op d (Put q c)) = if eqs q p then Some c else lookup p d.
Proof. cbn [apply_op lookup]. rewrite lookup_remove. now destruct (eqs q p). Qed.
Lemma lookup_rename p a b d c : lookup a d = Some c -> eqs a b = false ->
  lookup p (apply_op d (Rename a b)) = if eqs b p then Some c else if eqs a p then None else lookup p d.
Proof. intros H N. cbn [apply_op]. rewrite H. cbn [lookup]. rewrite !lookup_remove. now destruct (eqs b p). Qed.
Lemma lookup_app_ops d a b : apply_ops d (a ++ b) = apply_ops (apply_ops d a) b.
Proof. apply fold_left_app. Qed.
Lemma lookup_removes p (l : dir) : forall d, lookup p (apply_ops d (map (fun f => Remove (fst f)) l)) = match lookup p l with Some _ => None | None => lookup p d end.
Proof.
  induction l as [|[q c] l IH]; intros d; auto. cbn [map apply_ops fold_left]. change (fold_left apply_op ?x ?y) with (apply_ops y x). rewrite IH. cbn [fst apply_op lookup].
  rewrite lookup_remove. destruct (eqs q p); now destruct (lookup p l).
Qed.
Lemma lookup_in p l : lookup p l <> None -> In p (map fst l).
Proof. induction l as [|[q c] l IH]; cbn; [congruence|]. destruct (eqs q p) eqn:E; [apply eqs_eq in E; now left|right; auto]. Qed.
Lemma lookup_puts p (l : dir) : NoDup (map fst l) -> forall d, lookup p (apply_ops d (map (fun f => Put (fst f) (snd f)) l)) = match lookup p l with Some c => Some c | None => lookup p d end.
Proof.
  induction l as [|[q c] l IH]; intros N d; auto. cbn [map] in N. inversion N as [|? ? N1 N2]; subst. cbn [map apply_ops fold_left]. change (fold_left apply_op ?x ?y) with (apply_ops y x). rewrite (IH N2).
  rewrite lookup_put. cbn [fst snd lookup]. destruct (eqs q p) eqn:E; [|reflexivity]. apply eqs_eq in E. subst q.
  destruct (lookup p l) eqn:X; auto. exfalso. apply N1. cbn [fst]. apply lookup_in. congruence.
Qed.
Lemma lookup_exists p d (t : file -> bool) : (forall c, t (p, c) = true) -> lookup p d <> None -> existsb t d = true.
Proof.
  intros H. induction d as [|[q c] d IH]; cbn; [congruence|]. destruct (eqs q p) eqn:E.
  - apply eqs_eq in E. subst. now rewrite H.
  - intros X. rewrite IH by auto. apply orb_true_r.
Qed.
Lemma set_same p ls : forall v, first_line p ls = Some v -> set_line p v ls = ls.
Proof.
  induction ls as [|l r IH]; intros v; auto. destruct r as [|l' r']; [cbn; congruence|]. rewrite first_line_cons, set_line_cons by discriminate.
  destruct (has_prefix l p) eqn:E; [|intros H; f_equal; auto]. intros [= <-]. f_equal. apply has_prefix_iff in E as [z ->]. now rewrite skipn_app_exact.
Qed.
Section One.
  Variable embed : dir.
  Variable atoi : bytes -> nat.
  Hypothesis Sh : shipped embed.
  (** what is copied, before anything is injected *)
  Definition base (p : bytes) : option bytes := if eqs p go_mod_txt then None else if eqs p go_mod then lookup go_mod_txt embed else lookup p embed.
  Lemma copied d p : lookup p (apply_ops d (map (fun f => Remove (fst f)) d ++ map (fun f => Put (fst f) (snd f)) embed ++ [Rename go_mod_txt go_mod])) = base p.
  Proof.
    destruct Sh as [N M _ _ _ _]. rewrite !lookup_app_ops. set (d1 := apply_ops d (map (fun f => Remove (fst f)) d)). set (d2 := apply_ops d1 (map (fun f => Put (fst f) (snd f)) embed)).
    assert (H1 : forall q, lookup q d1 = None) by (intros q; unfold d1; rewrite lookup_removes; now destruct (lookup q d)).
    assert (H2 : forall q, lookup q d2 = lookup q embed) by (intros q; unfold d2; rewrite lookup_puts by exact N; rewrite H1; now destruct (lookup q embed)).
    destruct (lookup go_mod_txt embed) as [c|] eqn:C; [|congruence].
    cbn [apply_ops fold_left]. rewrite (lookup_rename p _ _ _ c) by (try reflexivity; now rewrite H2). unfold base. rewrite (eqs_sym go_mod), (eqs_sym go_mod_txt p), H2, C.
    destruct (eqs p go_mod) eqn:E1; destruct (eqs p go_mod_txt) eqn:E2; auto. apply eqs_eq in E1, E2. subst p. discriminate.
  Qed.
  Definition like_version (c c' : bytes) : Prop := tidy_file c' /\ forall v r n, writable v -> writable r -> writable n -> ReplaceActualXgoVersion c' v r n = ReplaceActualXgoVersion c v r n.
  Definition like_flags (c c' : bytes) : Prop := tidy_file c' /\ forall t q r, writable q -> InjectFlags c' t q r = InjectFlags c t q r.
  Definition good (d : dir) : Prop :=
    (forall p, p <> version_go -> p <> flags_go -> lookup p d = base p)
    /\ (exists c c', lookup version_go embed = Some c /\ lookup version_go d = Some c' /\ like_version c c')
    /\ (exists c c', lookup flags_go embed = Some c /\ lookup flags_go d = Some c' /\ like_flags c c').
  Lemma copied_good d : (forall p, lookup p d = base p) -> good d.
  Proof.
    intros H. destruct Sh as [_ _ _ _ (vc & V & TV) (fc & F & TF & _)]. split; [auto|split].
    - exists vc, vc. split; [exact V|]. split; [rewrite H; exact V|]. split; auto.
    - exists fc, fc. split; [exact F|]. split; [rewrite H; exact F|]. split; auto.
  Qed.
  Lemma put_trace_good d c : lookup trace_go embed = Some c -> good d -> good (apply_op d (Put trace_go c)).
  Proof.
    intros T (H & (vc & vc' & V1 & V2 & V3) & (fc & fc' & F1 & F2 & F3)). split; [|split].
    - intros p N1 N2. rewrite lookup_put. destruct (eqs trace_go p) eqn:E; [|auto]. apply eqs_eq in E. subst p. symmetry. exact T.
    - exists vc, vc'. split; [exact V1|]. split; [|exact V3]. rewrite lookup_put. exact V2.
    - exists fc, fc'. split; [exact F1|]. split; [|exact F3]. rewrite lookup_put. exact F2.
  Qed.
  Lemma load_good force d : good d -> exists ops, load_ops embed atoi force d = Some ops /\ good (apply_ops d ops) /\ (~(force || needCopy embed atoi d = true) -> lookup flags_go (apply_ops d ops) = lookup flags_go d).
  Proof.
    intros G. unfold load_ops. destruct (force || needCopy embed atoi d).
    - eexists. split; [reflexivity|]. split; [apply copied_good; intros p; apply copied|congruence].
    - pose proof (s_trace _ Sh) as T. destruct (lookup trace_go embed) as [c|] eqn:C; [|congruence].
      rewrite (lookup_exists trace_go) by (try reflexivity; destruct G as [H _]; rewrite H by discriminate; change (base trace_go) with (lookup trace_go embed); congruence).
      eexists. split; [reflexivity|]. split; [now apply put_trace_good|]. intros _. cbn [apply_ops fold_left]. rewrite lookup_put. reflexivity.
  Qed.
  Lemma version_again c c' v r n : like_version c c' -> writable v -> writable r -> writable n -> like_version c (ReplaceActualXgoVersion c' v r n).
  Proof.
    intros [T L] Wv Wr Wn. split; [now apply version_lines|]. intros v' r' n' A B C. rewrite C104_version_again; auto.
  Qed.
  Lemma flags_again c c' t q r : like_flags c c' -> writable q -> like_flags c (InjectFlags c' t q r).
  Proof.
    intros [T L] Wq. split; [now apply flags_lines|]. intros t' q' r' A. destruct (C104_flags c' t q r T Wq) as (_ & _ & _ & _ & X). rewrite X by auto. now apply L.
  Qed.
  Lemma flags_default : exists c, lookup flags_go embed = Some c /\ InjectFlags c false (dq ++ dq) false = c.
  Proof.
    destruct Sh as [_ _ _ _ _ (c & F & T & V1 & V2 & V3)]. exists c. split; auto. apply lines_inj.
    assert (W : writable (dq ++ dq)) by (change (dq ++ dq) with (dq ++ [] ++ dq); apply occurs_dq; split; [intros []|apply index_none_iff; reflexivity]).
    destruct (flags_lines c false (dq ++ dq) false T W) as [L _]. rewrite L.
    rewrite (set_same ft) by exact V1. rewrite (set_same fd) by exact V2. now rewrite (set_same fr) by exact V3.
  Qed.
  Lemma link_good x o d : plain_x x -> plain_o o -> good d ->
    good (apply_ops d (link_ops x o d))
    /\ (forall p, p <> flags_go -> lookup p (apply_ops d (link_ops x o d)) = expected embed x o p)
    /\ (any_flag o = true -> lookup flags_go (apply_ops d (link_ops x o d)) = expected embed x o flags_go)
    /\ (any_flag o = false -> lookup flags_go (apply_ops d (link_ops x o d)) = lookup flags_go d).
  Proof.
    intros (Wv & Wr & Wn) (Wq & _) (H & (vc & vc' & V1 & V2 & V3) & (fc & fc' & F1 & F2 & F3)). unfold link_ops. rewrite V2, F2.
    assert (E1 : expected embed x o flags_go = Some (InjectFlags fc (o_trace o) (o_dir_quoted o) (o_race o))) by (change (expected embed x o flags_go) with (option_map (fun c => InjectFlags c (o_trace o) (o_dir_quoted o) (o_race o)) (lookup flags_go embed)); now rewrite F1).
    assert (E2 : forall p, p <> flags_go -> (if eqs version_go p then Some (ReplaceActualXgoVersion vc' (x_version x) (x_revision x) (x_number x)) else lookup p d) = expected embed x o p).
    { intros p Np. destruct (eqs version_go p) eqn:E.
      - apply eqs_eq in E. subst p. change (expected embed x o version_go) with (option_map (fun c => ReplaceActualXgoVersion c (x_version x) (x_revision x) (x_number x)) (lookup version_go embed)). rewrite V1. cbn [option_map]. f_equal. now apply V3.
      - unfold expected. rewrite (eqs_sym p version_go), E. destruct (eqs p flags_go) eqn:E'; [apply eqs_eq in E'; contradiction|].
        rewrite H by (auto; intros ->; rewrite eqs_refl in E; discriminate). reflexivity. }
    destruct (any_flag o) eqn:A; cbn [app apply_ops fold_left].
    all: split; [split; [|split]|split; [|split]].
    all: try discriminate.
    - intros p N1 N2. rewrite !lookup_put. destruct (eqs flags_go p) eqn:E; [apply eqs_eq in E; congruence|]. destruct (eqs version_go p) eqn:E3; [apply eqs_eq in E3; congruence|]. auto.
    - exists vc, (ReplaceActualXgoVersion vc' (x_version x) (x_revision x) (x_number x)). split; [exact V1|]. split; [rewrite !lookup_put; reflexivity|now apply version_again].
    - exists fc, (InjectFlags fc' (o_trace o) (o_dir_quoted o) (o_race o)). split; [exact F1|]. split; [rewrite !lookup_put, eqs_refl; reflexivity|now apply flags_again].
    - intros p Np. rewrite !lookup_put. destruct (eqs flags_go p) eqn:E; [apply eqs_eq in E; congruence|]. now apply E2.
    - intros _. rewrite !lookup_put, eqs_refl, E1. f_equal. now apply F3.
    - intros p N1 N2. rewrite !lookup_put. destruct (eqs version_go p) eqn:E3; [apply eqs_eq in E3; congruence|]. auto.
    - exists vc, (ReplaceActualXgoVersion vc' (x_version x) (x_revision x) (x_number x)). split; [exact V1|]. split; [rewrite !lookup_put; reflexivity|now apply version_again].
    - exists fc, fc'. split; [exact F1|]. split; [rewrite !lookup_put; exact F2|exact F3].
    - intros p Np. rewrite lookup_put. now apply E2.
    - intros _. rewrite lookup_put. exact F2.
  Qed.
  Lemma off_expected x o : plain_o o -> any_flag o = false -> expected embed x o flags_go = lookup flags_go embed.
  Proof.
    intros [_ Q] A. destruct flags_default as (c & F & D). unfold any_flag in A. apply orb_false_iff in A as [A R]. apply orb_false_iff in A as [T E]. apply negb_false_iff, eqs_eq in E.
    change (expected embed x o flags_go) with (option_map (fun c => InjectFlags c (o_trace o) (o_dir_quoted o) (o_race o)) (lookup flags_go embed)).
    rewrite F, T, R, (Q E). cbn [option_map]. now rewrite D.
  Qed.
  (** Whatever is in the directory, also what a killed run left there: if the run is forced,
      or finds no copy or an older one, it compiles exactly what xgo brings, with the version
      of this xgo and the options of this run. *)
  Theorem C105_fresh (x : xgo) (o : opts) (d : dir) : plain_x x -> plain_o o -> o_force o = true \/ needCopy embed atoi d = true ->
    exists d', run embed atoi x d o = Some d' /\ forall p, lookup p d' = expected embed x o p.
  Proof.
    intros Px Po H. unfold run, load_ops. replace (o_force o || needCopy embed atoi d) with true by (destruct H as [-> | ->]; [reflexivity|now rewrite orb_true_r]).
    eexists. split; [reflexivity|]. intros p. set (ops := _ ++ _ ++ _). assert (B : forall p, lookup p (apply_ops d ops) = base p) by (intros; apply copied).
    destruct (link_good x o _ Px Po (copied_good _ B)) as (_ & L1 & L2 & L3). destruct (eqs p flags_go) eqn:E.
    - apply eqs_eq in E. subst p. destruct (any_flag o) eqn:A; auto. rewrite L3, off_expected by auto. rewrite B. reflexivity.
    - apply L1. intros ->. rewrite eqs_refl in E. discriminate.
  Qed.
  (** A history of the directory: runs to the end, and runs that are killed while they inject. *)
  Inductive history (d0 : dir) : dir -> Prop :=
  | h_start : history d0 d0
  | h_run x o d d' : history d0 d -> plain_x x -> plain_o o -> run embed atoi x d o = Some d' -> history d0 d'
  | h_killed x o d k ops : history d0 d -> plain_x x -> plain_o o -> load_ops embed atoi (o_force o) d = Some ops -> length ops <= k -> history d0 (killed embed atoi x d o k).
  Lemma link_firstn_good x o d k : plain_x x -> plain_o o -> good d -> good (apply_ops d (firstn k (link_ops x o d))).
  Proof.
    intros Px Po G. destruct (link_good x o d Px Po G) as (G' & _). destruct Px as (Wv & Wr & Wn). pose proof G as (H & (vc & vc' & V1 & V2 & V3) & (fc & fc' & F1 & F2 & F3)).
    destruct k as [|[|k]]; [exact G| |].
    - unfold link_ops. rewrite V2, F2. cbn [app firstn apply_ops fold_left]. split; [|split].
      + intros p N1 N2. rewrite !lookup_put. destruct (eqs version_go p) eqn:E3; [apply eqs_eq in E3; congruence|]. auto.
      + exists vc, (ReplaceActualXgoVersion vc' (x_version x) (x_revision x) (x_number x)). split; [exact V1|]. split; [rewrite !lookup_put; reflexivity|now apply version_again].
      + exists fc, fc'. split; [exact F1|]. split; [rewrite !lookup_put; exact F2|exact F3].
    - rewrite firstn_all2; auto. unfold link_ops. rewrite V2, F2. destruct (any_flag o); cbn; lia.
  Qed.
  Lemma history_good d0 d : history d0 d -> needCopy embed atoi d0 = true -> good d \/ d = d0.
  Proof.
    intros Hi N. induction Hi as [|x o d d' _ IH Px Po R|x o d k ops _ IH Px Po L K]; [now right| |].
    - left. unfold run in R. destruct IH as [G| ->].
      + destruct (load_good (o_force o) d G) as (ops & L & G' & _). rewrite L in R. injection R as <-. now apply link_good.
      + unfold load_ops in R. rewrite N, orb_true_r in R. injection R as <-. apply link_good; auto. apply copied_good. intros p. apply copied.
    - left. unfold killed. rewrite L. rewrite firstn_app, firstn_all2 by auto. rewrite lookup_app_ops.
      apply link_firstn_good; auto. destruct IH as [G| ->].
      + destruct (load_good (o_force o) d G) as (ops' & L' & G' & _). rewrite L in L'. now injection L' as <-.
      + unfold load_ops in L. rewrite N, orb_true_r in L. injection L as <-. apply copied_good. intros p. apply copied.
  Qed.
  (** After any such history a run compiles what xgo brings, with the version of this xgo;
      and with the options of this run, when one of them is on. Missing: that it does so with
      the options off (C105_flags_refuted), and when a run was killed while it copied
      (C105_killed_refuted). *)
  Theorem C105_history_partial (d0 d : dir) (x : xgo) (o : opts) : needCopy embed atoi d0 = true -> history d0 d -> plain_x x -> plain_o o ->
    exists d', run embed atoi x d o = Some d'
      /\ (forall p, p <> flags_go -> lookup p d' = expected embed x o p)
      /\ ((o_trace o = true \/ o_dir o <> [] \/ o_race o = true \/ o_force o = true) -> lookup flags_go d' = expected embed x o flags_go)
      /\ (lookup flags_go d' = expected embed x o flags_go \/ lookup flags_go d' = lookup flags_go d).
  Proof.
    intros N Hi Px Po. destruct (history_good _ _ Hi N) as [G| ->].
    - unfold run. destruct (load_good (o_force o) d G) as (ops & L & G' & S). rewrite L. eexists. split; [reflexivity|].
      destruct (link_good x o _ Px Po G') as (_ & L1 & L2 & L3). split; [exact L1|].
      assert (Fr : o_force o = true -> lookup flags_go (apply_ops (apply_ops d ops) (link_ops x o (apply_ops d ops))) = expected embed x o flags_go).
      { intros F. destruct (C105_fresh x o d Px Po (or_introl F)) as (d' & R & X). unfold run in R. rewrite L in R. injection R as <-. apply X. }
      split.
      + intros [H|[H|[H|H]]]; auto; apply L2; unfold any_flag; rewrite ?H, ?orb_true_r; auto.
        destruct (eqs (o_dir o) []) eqn:E; [apply eqs_eq in E; contradiction|]. now rewrite orb_true_r.
      + destruct (any_flag o) eqn:A; [left; auto|]. destruct (o_force o || needCopy embed atoi d) eqn:C.
        * left. destruct (C105_fresh x o d Px Po) as (d' & R & X); [apply orb_true_iff in C; tauto|]. unfold run in R. rewrite L in R. injection R as <-. apply X.
        * right. rewrite L3 by reflexivity. apply S. discriminate.
    - destruct (C105_fresh x o d0 Px Po (or_intror N)) as (d' & R & X). exists d'. split; [exact R|]. split; [auto|]. split; auto.
  Qed.
End One.
(** ** What fails *)
Definition ex_version : bytes := #"package core" ++ nl :: nl :: #"const VERSION = ""1.1.5""" ++ nl :: #"const NUMBER = 3" ++ nl :: #"const XGO_VERSION = """"" ++ nl :: #"const XGO_REVISION = """"" ++ nl :: #"const XGO_NUMBER = 0" ++ [nl].
Definition ex_embed : dir := [(version_go, ex_version); (go_mod_txt, #"module github.com/xhd2015/xgo/runtime"); (flags_go, ex_flags); (trace_go, #"package trace")].
Definition ex_atoi (t : bytes) : nat := if eqs t #"3" then 3 else 0.
Definition ex_xgo : xgo := {| x_version := #"1.1.5"; x_revision := #"abc"; x_number := #"3" |}.
Definition ex_on : opts := {| o_force := false; o_trace := true; o_dir := []; o_dir_quoted := dq ++ dq; o_race := false |}.
Definition ex_off : opts := {| o_force := false; o_trace := false; o_dir := []; o_dir_quoted := dq ++ dq; o_race := false |}.
Lemma tidy_by_lines c : forallb tidy_b (lines c) = true -> tidy_file c.
Proof. intros H. apply Forall_forall. intros l I. rewrite forallb_forall in H. now apply tidy_by_index, H. Qed.
Example C105_nontrivial : shipped ex_embed /\ plain_x ex_xgo /\ plain_o ex_on /\ plain_o ex_off /\ needCopy ex_embed ex_atoi [] = true
  /\ exists d, run ex_embed ex_atoi ex_xgo [] ex_on = Some d /\ needCopy ex_embed ex_atoi d = false.
Proof.
  assert (Q : writable (dq ++ dq)) by (change (dq ++ dq) with (dq ++ [] ++ dq); apply occurs_dq; split; [intros []|apply index_none_iff; reflexivity]).
  split; [|split; [|split; [|split; [|split]]]].
  - split; try discriminate; try reflexivity.
    + cbn [map fst ex_embed]. repeat constructor; intros H; cbn [In] in H; repeat (destruct H as [H|H]); try discriminate; contradiction.
    + exists ex_version. split; [reflexivity|]. apply tidy_by_lines. reflexivity.
    + exists ex_flags. split; [reflexivity|]. split; [apply tidy_by_lines; reflexivity|]. repeat split; reflexivity.
  - split; [|split]; (split; [pat|apply index_none_iff; reflexivity]).
  - split; [exact Q|reflexivity].
  - split; [exact Q|reflexivity].
  - reflexivity.
  - eexists. split; reflexivity.
Qed.
(** The options of an earlier run stay: a run that collects traces is followed by a plain run,
    which collects traces too. *)
Theorem C105_flags_refuted : ~ (forall embed atoi d0 d x o, shipped embed -> needCopy embed atoi d0 = true -> history embed atoi d0 d -> plain_x x -> plain_o o ->
  exists d', run embed atoi x d o = Some d' /\ lookup flags_go d' = expected embed x o flags_go).
Proof.
  intros H. destruct C105_nontrivial as (Sh & Px & P1 & P2 & N & d & R & _).
  destruct (H ex_embed ex_atoi [] d ex_xgo ex_off Sh N) as (d' & R' & E); auto.
  { apply (h_run _ _ _ ex_xgo ex_on []); auto. constructor. }
  assert (X : match run ex_embed ex_atoi ex_xgo [] ex_on with Some d => match run ex_embed ex_atoi ex_xgo d ex_off with Some d' => option_map (value #"COLLECT_TEST_TRACE") (lookup flags_go d') | None => None end | None => None end = Some (Some #"true")) by (vm_compute; reflexivity).
  rewrite R, R', E in X. vm_compute in X. discriminate.
Qed.
(** Killed after core/version.go is written, the copy stays without the other files: go.mod
    is in no later directory unless a run is forced, and where there is no directory trace
    yet every later run fails. *)
Theorem C105_killed_refuted : ~ (forall embed atoi x o k x' o', shipped embed -> plain_x x -> plain_o o -> plain_x x' -> plain_o o' ->
  exists d', run embed atoi x' (killed embed atoi x [] o k) o' = Some d' /\ lookup go_mod d' = lookup go_mod_txt embed).
Proof.
  intros H. destruct C105_nontrivial as (Sh & Px & P1 & P2 & _). destruct (H ex_embed ex_atoi ex_xgo ex_on 1 ex_xgo ex_on) as (d' & R & _); auto.
  vm_compute in R. discriminate.
Qed.
Theorem C105_killed_silent_refuted : ~ (forall embed atoi x o k x' o' d', shipped embed -> plain_x x -> plain_o o -> plain_x x' -> plain_o o' ->
  run embed atoi x' (killed embed atoi x [] o k) o' = Some d' -> lookup go_mod d' = lookup go_mod_txt embed).
Proof.
  intros H. destruct C105_nontrivial as (Sh & Px & P1 & P2 & _).
  destruct (run ex_embed ex_atoi ex_xgo (killed ex_embed ex_atoi ex_xgo [] ex_on 4) ex_on) as [d'|] eqn:R; [|vm_compute in R; discriminate].
  pose proof (H ex_embed ex_atoi ex_xgo ex_on 4 ex_xgo ex_on d' Sh Px P1 Px P1 R) as X. vm_compute in R. injection R as <-. vm_compute in X. discriminate.
Qed.
