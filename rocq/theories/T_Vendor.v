(** * C71: vendor/modules.txt is read as go mod vendor writes it *)
From Coq Require Import Ascii String List Arith Bool Lia.
From Verif Require Import M_Str P_Str M_Version M_Module M_Vendor T_Version T_Version2.
Import ListNotations.
Open Scope nat_scope.
Open Scope list_scope.

(** ** Specification: what go mod vendor writes (cmd/go/internal/modcmd/vendor.go) *)
Definition word (t : bytes) : Prop := t <> [] /\ Forall (fun c => is_space c = false) t.
(** A vendored module: the module or directory it is replaced by, whether go.mod requires it,
    its Go version, and its packages that are used. *)
Record block := { b_path : bytes; b_version : bytes; b_repl : option (bytes * option bytes); b_explicit : bool; b_go : option bytes; b_pkgs : list bytes }.
(** A replacement of all versions of a module. *)
Record wild := { w_path : bytes; w_repl : bytes * option bytes }.
Definition repl_words (r : bytes * option bytes) : list bytes := #"=>" :: fst r :: match snd r with Some v => [v] | None => [] end.
Definition block_lines (b : block) : list bytes :=
  [join #" " ([#"#"; b_path b; b_version b] ++ match b_repl b with Some r => repl_words r | None => [] end)] ++
  match b_explicit b, b_go b with
  | true, Some g => [#"## explicit; go " ++ g]
  | true, None => [#"## explicit"]
  | false, Some g => [#"## go " ++ g]
  | false, None => []
  end ++ b_pkgs b.
Definition wild_line (w : wild) : bytes := join #" " ([#"#"; w_path w] ++ repl_words (w_repl w)).
Definition modules_txt (bs : list block) (ws : list wild) : bytes := join [newline] (flat_map block_lines bs ++ map wild_line ws ++ [[]]).
Definition repl_ok (r : bytes * option bytes) : Prop := word (fst r) /\ match snd r with Some v => word v /\ is_sem_version v | None => True end.
Definition block_ok (b : block) : Prop :=
  word (b_path b) /\ word (b_version b) /\ is_sem_version (b_version b) /\ match b_repl b with Some r => repl_ok r | None => True end /\
  match b_go b with Some g => word g /\ ~ In ";"%char g | None => True end /\ Forall (fun p => word p /\ ~ exists r, p = #"#" ++ r) (b_pkgs b).
Definition wild_ok (w : wild) : Prop := word (w_path w) /\ repl_ok (w_repl w).
Definition file_ok (bs : list block) (ws : list wild) : Prop :=
  Forall block_ok bs /\ Forall wild_ok ws /\ NoDup (map b_path bs) /\ NoDup (map w_path ws).
Definition mod_of (b : block) : modv := {| m_path := b_path b; m_version := b_version b |}.
Definition wild_mod (w : wild) : modv := {| m_path := w_path w; m_version := [] |}.
Definition repl_mod (r : option (bytes * option bytes)) : modv :=
  match r with None => {| m_path := []; m_version := [] |} | Some (p, None) => {| m_path := p; m_version := [] |} | Some (p, Some v) => {| m_path := p; m_version := v |} end.
Definition used (b : block) : bool := match b_pkgs b with [] => false | _ => true end.
Definition replaced (b : block) : bool := match b_repl b with None => false | _ => true end.

(** ** Proofs *)
Lemma word_no_space t : word t -> forall c, In c t -> is_space c = false. Proof. intros [_ F]. now apply Forall_forall. Qed.
Lemma fields_word t : forall cur, Forall (fun c => is_space c = false) t -> fields_from t cur = match cur ++ t with [] => [] | x => [x] end.
Proof.
  induction t as [|c t IH]; intros cur F; cbn [fields_from]; [rewrite app_nil_r; now destruct cur|]. inversion F; subst. rewrite H1, IH by auto. rewrite <- app_assoc. reflexivity.
Qed.
Lemma fields_word_space t c r : is_space c = true -> forall cur, Forall (fun c => is_space c = false) t -> cur ++ t <> [] -> fields_from (t ++ c :: r) cur = (cur ++ t) :: fields_from r [].
Proof.
  intros S. induction t as [|d t IH]; intros cur F N.
  - cbn [app fields_from]. rewrite S, app_nil_r in *. destruct cur; [congruence|reflexivity].
  - inversion F; subst. cbn [app fields_from]. rewrite H1, IH; auto; rewrite <- app_assoc; auto.
Qed.
Lemma fields_join ws : Forall word ws -> fields (join #" " ws) = ws.
Proof.
  unfold fields. induction 1 as [|t ws [N F] W IH]; [reflexivity|]. destruct ws as [|u ws].
  - cbn [join]. rewrite fields_word by auto. destruct t; [congruence|reflexivity].
  - change (join #" " (t :: u :: ws)) with (t ++ " "%char :: join #" " (u :: ws)). rewrite fields_word_space by auto. cbn [app]. now rewrite IH.
Qed.
Lemma word_single t : word t -> fields t = [t].
Proof. intros W. apply (fields_join [t]). repeat constructor; auto; apply W. Qed.
Lemma trim_ends c y z d : is_space c = false -> is_space d = false -> c :: y = z ++ [d] -> forall w, Forall (fun c => is_space c = true) w -> trim_space (w ++ c :: y) = c :: y.
Proof.
  intros C D E w W. unfold trim_space. assert (T : forall w r, Forall (fun c => is_space c = true) w -> trim_left_by is_space (w ++ r) = trim_left_by is_space r) by (induction 1 as [|e u H F IH]; auto; cbn; now rewrite H).
  rewrite T by auto. cbn [trim_left_by]. rewrite C, E, rev_app_distr. cbn [rev app trim_left_by]. rewrite D. cbn [rev]. now rewrite rev_involutive.
Qed.
Lemma valid_form v : is_sem_version v -> valid_semver v = true.
Proof. intros (f & H & <-). unfold valid_semver. destruct (parse_form f H) as [b ->]. reflexivity. Qed.
Lemma modv_eqb_eq a b : modv_eqb a b = true <-> a = b.
Proof.
  unfold modv_eqb. rewrite andb_true_iff, !eqs_eq. destruct a, b; cbn. split; [intros [-> ->]; auto|intros H; injection H as -> ->; auto].
Qed.
Lemma modv_refl a : modv_eqb a a = true. Proof. now apply modv_eqb_eq. Qed.
Lemma lookup_app {K V} eqb (k : K) (a b : list (K * V)) : lookup eqb k (a ++ b) = match lookup eqb k a with Some v => Some v | None => lookup eqb k b end.
Proof. induction a as [|[k' v] a IH]; auto. cbn. destruct (eqb k k'); auto. Qed.
Lemma lookup_notin {K V} (eqb : K -> K -> bool) (H : forall a b, eqb a b = true <-> a = b) (k : K) (l : list (K * V)) : ~ In k (map fst l) -> lookup eqb k l = None.
Proof. induction l as [|[k' v] l IH]; auto. cbn. intros N. destruct (eqb k k') eqn:E; [apply H in E; subst; tauto|apply IH; tauto]. Qed.
Lemma mod_compare_refl p x : mod_compare p x x = Eq.
Proof.
  destruct C29_total_preorder as [[R1 _] _]. destruct C40_semver_total_preorder as [[R2 _] _]. unfold mod_compare. destruct (eqs p #"go"); auto. destruct (eqs p #"toolchain"); auto.
Qed.
Lemma repl_words_ok r : repl_ok r -> Forall word (repl_words r).
Proof.
  intros [A B]. unfold repl_words. constructor; [split; [discriminate|repeat constructor]|]. constructor; auto. destruct (snd r); [constructor; [apply B|constructor]|constructor].
Qed.
Lemma hash_word : word #"#". Proof. split; [discriminate|repeat constructor]. Qed.
Lemma line_prefix l ws : has_prefix (join #" " (#"#" :: l :: ws)) #"# " = true.
Proof. change (join #" " (#"#" :: l :: ws)) with (#"# " ++ join #" " (l :: ws)). apply has_prefix_app. Qed.
(** The metadata a replacement gives. *)
Definition repl_meta (r : option (bytes * option bytes)) : meta := {| explicit := false; replacement := repl_mod r; meta_go := [] |}.
Lemma read_repl v r : repl_ok r -> lookup modv_eqb (v_mod v) (v_meta v) = None -> read_replacement v (repl_words r) = put_meta (add_replaced v) (repl_meta (Some r)).
Proof.
  intros [A B] N. destruct r as [p [x|]]; unfold repl_words, read_replacement, meta_of; cbn [fst snd] in *; rewrite eqs_refl, N; [rewrite valid_form by apply B|]; reflexivity.
Qed.
Definition want_meta (b : block) : meta := {| explicit := b_explicit b; replacement := repl_mod (b_repl b); meta_go := match b_go b with Some g => g | None => [] end |}.
Definition block_metas (b : block) : list (modv * meta) :=
  (if b_explicit b || match b_go b with Some _ => true | None => false end then [(mod_of b, want_meta b)] else []) ++
  (if replaced b then [(mod_of b, repl_meta (b_repl b))] else []).
Definition after_block (v : vendor) (b : block) : vendor :=
  {| v_list := v_list v ++ (if used b then [mod_of b] else []); v_replaced := v_replaced v ++ (if replaced b then [mod_of b] else []);
     v_version := (if used b then [(b_path b, b_version b)] else []) ++ v_version v;
     v_pkgs := rev (map (fun p => (p, mod_of b)) (b_pkgs b)) ++ v_pkgs v;
     v_meta := block_metas b ++ v_meta v; v_mod := mod_of b |}.
Lemma word_last g : word g -> exists z d, g = z ++ [d] /\ is_space d = false.
Proof. intros [N F]. destruct g as [|d z _] using rev_ind; [congruence|]. exists z, d. split; auto. apply Forall_app in F as [_ F]. now inversion F. Qed.
Lemma annotate_explicit m : annotate m #"explicit" = {| explicit := true; replacement := replacement m; meta_go := meta_go m |}.
Proof. reflexivity. Qed.
Lemma annotate_go m w g : word g -> Forall (fun c => is_space c = true) w -> annotate m (w ++ #"go " ++ g) = {| explicit := explicit m; replacement := replacement m; meta_go := g |}.
Proof.
  intros G W. destruct (word_last g G) as (z & d & E & D). unfold annotate.
  assert (T : trim_space (w ++ #"go " ++ g) = #"go " ++ g).
  { change (#"go " ++ g) with ("g"%char :: #"o " ++ g). apply (trim_ends _ _ (#"go " ++ z) d); auto. rewrite E. reflexivity. }
  rewrite T. assert (Q : eqs (#"go " ++ g) #"explicit" = false) by reflexivity. rewrite Q, has_prefix_app. reflexivity.
Qed.
Lemma package_one v p : word p -> (~ exists r, p = #"#" ++ r) -> m_path (v_mod v) <> [] -> parse_line v p = package_line v p.
Proof.
  intros W N M. unfold parse_line. assert (H : forall r, has_prefix p (#"#" ++ r) = false).
  { intros r. destruct (has_prefix p (#"#" ++ r)) eqn:E; auto. exfalso. apply has_prefix_sound in E as [t ->]. apply N. exists (r ++ t). now rewrite <- app_assoc. }
  change #"# " with (#"#" ++ #" "). change #"## " with (#"#" ++ #"# "). rewrite !H. destruct (m_path (v_mod v)); [congruence|reflexivity].
Qed.
Lemma packages_more ps m : m_path m <> [] -> Forall (fun p => word p /\ ~ exists r, p = #"#" ++ r) ps -> forall v, v_mod v = m -> lookup eqs (m_path m) (v_version v) = Some (m_version m) ->
  fold_left parse_line ps v = {| v_list := v_list v; v_replaced := v_replaced v; v_version := v_version v; v_pkgs := rev (map (fun p => (p, m)) ps) ++ v_pkgs v; v_meta := v_meta v; v_mod := m |}.
Proof.
  intros M. induction 1 as [|p ps [W N] F IH]; intros v Vm L; cbn [fold_left]; [subst m; destruct v; reflexivity|].
  rewrite package_one by (auto; now rewrite Vm). unfold package_line. rewrite word_single, Vm, L, mod_compare_refl by auto. rewrite IH by auto. cbn [v_list v_replaced v_version v_pkgs v_meta map rev].
  now rewrite <- app_assoc.
Qed.
Lemma packages_all ps m : m_path m <> [] -> Forall (fun p => word p /\ ~ exists r, p = #"#" ++ r) ps -> forall v, v_mod v = m -> lookup eqs (m_path m) (v_version v) = None ->
  fold_left parse_line ps v = {| v_list := v_list v ++ (match ps with [] => [] | _ => [m] end); v_replaced := v_replaced v; v_version := (match ps with [] => [] | _ => [(m_path m, m_version m)] end) ++ v_version v;
    v_pkgs := rev (map (fun p => (p, m)) ps) ++ v_pkgs v; v_meta := v_meta v; v_mod := m |}.
Proof.
  intros M F v Vm L. destruct F as [|p ps [W N] F]; [cbn; rewrite app_nil_r; subst m; destruct v; reflexivity|]. cbn [fold_left].
  rewrite package_one by (auto; now rewrite Vm). unfold package_line. rewrite word_single, Vm, L by auto. rewrite (packages_more ps m M F) by (cbn; rewrite ?eqs_refl; auto).
  cbn [v_list v_replaced v_version v_pkgs v_meta map rev app]. now rewrite <- app_assoc.
Qed.
Lemma parse_block v b : block_ok b -> lookup eqs (b_path b) (v_version v) = None -> lookup modv_eqb (mod_of b) (v_meta v) = None ->
  fold_left parse_line (block_lines b) v = after_block v b.
Proof.
  intros (Wp & Wv & Sv & Rok & Gok & Pok) Lv Lm. unfold block_lines. rewrite !fold_left_app. cbn [fold_left].
  set (v1 := parse_line v (join #" " ([#"#"; b_path b; b_version b] ++ match b_repl b with Some r => repl_words r | None => [] end))).
  assert (E1 : v1 = {| v_list := v_list v; v_replaced := v_replaced v ++ (if replaced b then [mod_of b] else []); v_version := v_version v; v_pkgs := v_pkgs v;
                       v_meta := (if replaced b then [(mod_of b, repl_meta (b_repl b))] else []) ++ v_meta v; v_mod := mod_of b |}).
  { unfold v1, parse_line. cbn [app]. rewrite line_prefix. unfold module_line.
    assert (F : fields (join #" " (#"#" :: b_path b :: b_version b :: match b_repl b with Some r => repl_words r | None => [] end)) = #"#" :: b_path b :: b_version b :: match b_repl b with Some r => repl_words r | None => [] end).
    { apply fields_join. constructor; [apply hash_word|]. constructor; auto. constructor; auto. destruct (b_repl b); [now apply repl_words_ok|constructor]. }
    rewrite F, valid_form by auto. unfold replaced. destruct (b_repl b) as [r|].
    - rewrite read_repl by auto. reflexivity.
    - cbn [read_replacement app]. rewrite app_nil_r. reflexivity. }
  clearbody v1.
  assert (M : m_path (v_mod v1) <> []) by (rewrite E1; apply Wp).
  assert (MO : meta_of v1 (v_mod v1) = repl_meta (b_repl b)).
  { rewrite E1. unfold meta_of. cbn [v_mod v_meta]. rewrite lookup_app. unfold replaced. destruct (b_repl b); cbn [lookup]; [now rewrite modv_refl|rewrite Lm; reflexivity]. }
  set (v2 := fold_left parse_line (match b_explicit b, b_go b with true, Some g => [#"## explicit; go " ++ g] | true, None => [#"## explicit"] | false, Some g => [#"## go " ++ g] | false, None => [] end) v1).
  assert (E2 : v2 = {| v_list := v_list v; v_replaced := v_replaced v ++ (if replaced b then [mod_of b] else []); v_version := v_version v; v_pkgs := v_pkgs v; v_meta := block_metas b ++ v_meta v; v_mod := mod_of b |}).
  { assert (Step : forall line x, has_prefix line #"## " = true -> fold_left annotate (split ";"%char (skipn 3 line)) (repl_meta (b_repl b)) = x -> parse_line v1 line = put_meta v1 x).
    { intros line x P Q. unfold parse_line. assert (P2 : has_prefix line #"# " = false) by (apply has_prefix_sound in P as [t ->]; reflexivity). rewrite P2, P, MO, Q. destruct (m_path (v_mod v1)); [congruence|reflexivity]. }
    unfold v2, block_metas, want_meta. destruct (b_explicit b), (b_go b) as [g|]; cbn [orb app fold_left].
    - destruct Gok as [Gw Gs]. rewrite (Step _ {| explicit := true; replacement := repl_mod (b_repl b); meta_go := g |}); [rewrite E1; reflexivity|apply (has_prefix_app (#"explicit; go " ++ g) #"## ")|].
      change (skipn 3 (#"## explicit; go " ++ g)) with (#"explicit" ++ ";"%char :: #" go " ++ g). rewrite split_cons by (vm_compute; intuition discriminate).
      rewrite split_noc by (intros I; apply in_app_or in I as [I|I]; [vm_compute in I; intuition discriminate|contradiction]).
      cbn [fold_left]. rewrite annotate_explicit. change (#" go " ++ g) with (#" " ++ #"go " ++ g). rewrite annotate_go; auto. repeat constructor.
    - rewrite (Step _ {| explicit := true; replacement := repl_mod (b_repl b); meta_go := [] |}); [rewrite E1; reflexivity|reflexivity|reflexivity].
    - destruct Gok as [Gw Gs]. rewrite (Step _ {| explicit := false; replacement := repl_mod (b_repl b); meta_go := g |}); [rewrite E1; reflexivity|apply (has_prefix_app (#"go " ++ g) #"## ")|].
      change (skipn 3 (#"## go " ++ g)) with (#"go " ++ g). rewrite split_noc by (intros I; apply in_app_or in I as [I|I]; [vm_compute in I; intuition discriminate|contradiction]).
      cbn [fold_left]. change (#"go " ++ g) with ([] ++ #"go " ++ g). rewrite annotate_go; auto.
    - exact E1. }
  change (fold_left parse_line (b_pkgs b) v2 = after_block v b). clearbody v2. clear v1 E1 M MO. rewrite (packages_all (b_pkgs b) (mod_of b)); [|apply Wp|exact Pok|now rewrite E2|rewrite E2; exact Lv].
  rewrite E2. unfold after_block, used. cbn [v_list v_replaced v_version v_pkgs v_meta v_mod]. destruct (b_pkgs b); reflexivity.
Qed.
Definition after_wild (v : vendor) (w : wild) : vendor :=
  {| v_list := v_list v; v_replaced := v_replaced v ++ [wild_mod w]; v_version := v_version v; v_pkgs := v_pkgs v; v_meta := (wild_mod w, repl_meta (Some (w_repl w))) :: v_meta v; v_mod := wild_mod w |}.
Lemma parse_wild v w : wild_ok w -> lookup modv_eqb (wild_mod w) (v_meta v) = None -> parse_line v (wild_line w) = after_wild v w.
Proof.
  intros [Wp Rok] L. unfold parse_line, wild_line. cbn [app]. rewrite line_prefix. unfold module_line.
  rewrite fields_join by (constructor; [apply hash_word|]; constructor; auto; now apply repl_words_ok).
  change (repl_words (w_repl w)) with (#"=>" :: fst (w_repl w) :: match snd (w_repl w) with Some v => [v] | None => [] end) at 1.
  cbn iota. assert (Q : valid_semver #"=>" = false) by reflexivity. rewrite Q, eqs_refl. change (#"=>" :: fst (w_repl w) :: match snd (w_repl w) with Some v => [v] | None => [] end) with (repl_words (w_repl w)).
  rewrite read_repl by auto. reflexivity.
Qed.
Lemma parse_blocks bs : Forall block_ok bs -> NoDup (map b_path bs) -> forall v, (forall b, In b bs -> ~ In (b_path b) (map fst (v_version v)) /\ ~ In (b_path b) (map (fun e => m_path (fst e)) (v_meta v))) ->
  fold_left parse_line (flat_map block_lines bs) v = fold_left after_block bs v.
Proof.
  induction 1 as [|b bs B F IH]; intros N v H; [reflexivity|]. cbn [flat_map fold_left map] in *. rewrite fold_left_app. inversion N as [|? ? N1 N2]; subst.
  destruct (H b (or_introl eq_refl)) as [H1 H2]. rewrite parse_block; auto.
  - apply IH; auto. intros b' I. destruct (H b' (or_intror I)) as [K1 K2]. assert (D : b_path b <> b_path b') by (intros E; apply N1; rewrite E; now apply in_map).
    cbn [after_block v_version v_meta]. rewrite !map_app. split; intros J; apply in_app_or in J as [J|J]; auto.
    + destruct (used b); [destruct J as [J|[]]; auto|destruct J].
    + unfold block_metas in J. rewrite map_app in J. apply in_app_or in J as [J|J]; [destruct (b_explicit b || _); [|destruct J]|destruct (replaced b); [|destruct J]]; destruct J as [J|[]]; auto.
  - now apply lookup_notin; [apply eqs_eq|].
  - apply lookup_notin; [apply modv_eqb_eq|]. intros J. apply H2. apply in_map_iff in J as ([m x] & E & J). cbn in E. subst m. apply in_map_iff. exists (mod_of b, x). split; auto.
Qed.
Lemma parse_wilds ws : Forall wild_ok ws -> NoDup (map w_path ws) -> forall v, (forall w, In w ws -> ~ In (wild_mod w) (map fst (v_meta v))) ->
  fold_left parse_line (map wild_line ws) v = fold_left after_wild ws v.
Proof.
  induction 1 as [|w ws W F IH]; intros N v H; [reflexivity|]. cbn [map fold_left] in *. inversion N as [|? ? N1 N2]; subst. rewrite parse_wild; auto.
  - apply IH; auto. intros w' I. cbn [after_wild v_meta map fst]. intros [E|J]; [|now apply (H w' (or_intror I))]. apply N1. injection E as ->. now apply in_map.
  - apply lookup_notin; [apply modv_eqb_eq|]. apply H. now left.
Qed.
Lemma blocks_fields bs : forall v, let v' := fold_left after_block bs v in
  v_list v' = v_list v ++ map mod_of (filter used bs) /\ v_replaced v' = v_replaced v ++ map mod_of (filter replaced bs) /\
  v_pkgs v' = rev (flat_map (fun b => map (fun p => (p, mod_of b)) (b_pkgs b)) bs) ++ v_pkgs v /\ v_meta v' = flat_map block_metas (rev bs) ++ v_meta v.
Proof.
  induction bs as [|b bs IH]; intros v; cbv zeta; [cbn; rewrite !app_nil_r; auto|]. cbn [fold_left]. destruct (IH (after_block v b)) as (A & B & C & D). rewrite A, B, C, D. cbn [after_block v_list v_replaced v_pkgs v_meta filter flat_map rev].
  repeat split.
  - destruct (used b); cbn [map app]; rewrite <- ?app_assoc; auto. 
  - destruct (replaced b); cbn [map app]; rewrite <- ?app_assoc; auto.
  - rewrite rev_app_distr, <- app_assoc. reflexivity.
  - rewrite flat_map_app. cbn [flat_map]. rewrite app_nil_r, <- app_assoc. reflexivity.
Qed.
Lemma wilds_fields ws : forall v, let v' := fold_left after_wild ws v in
  v_list v' = v_list v /\ v_replaced v' = v_replaced v ++ map wild_mod ws /\ v_pkgs v' = v_pkgs v /\
  v_meta v' = rev (map (fun w => (wild_mod w, repl_meta (Some (w_repl w)))) ws) ++ v_meta v.
Proof.
  induction ws as [|w ws IH]; intros v; cbv zeta; [cbn; rewrite !app_nil_r; auto|]. cbn [fold_left]. destruct (IH (after_wild v w)) as (A & B & C & D). rewrite A, B, C, D. cbn [after_wild v_list v_replaced v_pkgs v_meta map rev].
  repeat split; rewrite <- ?app_assoc; auto.
Qed.
Lemma block_metas_keys b m x : In (m, x) (block_metas b) -> m = mod_of b.
Proof. unfold block_metas. intros I. apply in_app_or in I as [I|I]; [destruct (_ || _) in I; [|destruct I]|destruct (replaced b) in I; [|destruct I]]; destruct I as [I|[]]; now injection I. Qed.
Lemma lines_no_newline bs ws : Forall block_ok bs -> Forall wild_ok ws -> Forall (fun l => ~ In newline l) (flat_map block_lines bs ++ map wild_line ws ++ [[]]).
Proof.
  assert (W : forall t, word t -> ~ In newline t) by (intros t [_ F] I; rewrite Forall_forall in F; apply F in I; discriminate I).
  assert (J : forall l, Forall word l -> ~ In newline (join #" " l)).
  { induction 1 as [|t l Wt F IH]; [intros []|]. destruct l as [|u l]; [now apply W|]. change (join #" " (t :: u :: l)) with (t ++ #" " ++ join #" " (u :: l)). intros I.
    apply in_app_or in I as [I|I]; [now apply (W t)|]. apply in_app_or in I as [I|I]; [vm_compute in I; intuition discriminate|auto]. }
  intros B Wl. apply Forall_app. split; [|apply Forall_app; split; [|repeat constructor; intros []]].
  - apply Forall_forall. intros l I. apply in_flat_map in I as (b & Ib & I). rewrite Forall_forall in B. destruct (B b Ib) as (Wp & Wv & Sv & Rok & Gok & Pok). unfold block_lines in I.
    apply in_app_or in I as [[<-|[]]|I]; [|apply in_app_or in I as [I|I]].
    + apply J. cbn [app]. constructor; [apply hash_word|]. constructor; auto. constructor; auto. destruct (b_repl b); [now apply repl_words_ok|constructor].
    + assert (G : forall p g, In newline (p ++ g) -> ~ In newline p -> word g -> False) by (intros p g X Np Wg; apply in_app_or in X as [X|X]; [auto|now apply (W g)]).
      destruct (b_explicit b), (b_go b) as [g|]; try (destruct I as [<-|[]]); try (now destruct I).
      * intros X. apply (G _ _ X); [vm_compute; intuition discriminate|apply Gok].
      * vm_compute. intuition discriminate.
      * intros X. apply (G _ _ X); [vm_compute; intuition discriminate|apply Gok].
    + apply W. rewrite Forall_forall in Pok. now apply Pok.
  - apply Forall_forall. intros l I. apply in_map_iff in I as (w & <- & I). rewrite Forall_forall in Wl. destruct (Wl w I) as [Wp Rok]. apply J. constructor; [apply hash_word|]. constructor; auto. now apply repl_words_ok.
Qed.
Lemma parse_file bs ws : file_ok bs ws -> exists v, parse_vendor (modules_txt bs ws) = v /\
  v_list v = map mod_of (filter used bs) /\ v_replaced v = map mod_of (filter replaced bs) ++ map wild_mod ws /\
  v_pkgs v = rev (flat_map (fun b => map (fun p => (p, mod_of b)) (b_pkgs b)) bs) /\
  v_meta v = rev (map (fun w => (wild_mod w, repl_meta (Some (w_repl w)))) ws) ++ flat_map block_metas (rev bs).
Proof.
  intros (B & W & NB & NW). eexists. split; [reflexivity|]. unfold parse_vendor, modules_txt. rewrite split_join; [|destruct (flat_map _ _), (map wild_line ws); discriminate|now apply lines_no_newline].
  rewrite !fold_left_app. rewrite parse_blocks; auto. set (v1 := fold_left after_block bs empty_vendor).
  destruct (blocks_fields bs empty_vendor) as (A1 & A2 & A3 & A4). fold v1 in A1, A2, A3, A4. cbn [empty_vendor v_list v_replaced v_pkgs v_meta] in *. rewrite app_nil_r in A3, A4.
  rewrite parse_wilds; auto.
  - set (v2 := fold_left after_wild ws v1). destruct (wilds_fields ws v1) as (C1 & C2 & C3 & C4). fold v2 in C1, C2, C3, C4. cbn [fold_left].
    assert (E : parse_line v2 [] = v2) by (unfold parse_line, package_line; cbn; destruct (m_path (v_mod v2)); destruct v2; reflexivity). rewrite E, C1, C2, C3, C4, A1, A2, A3, A4. auto.
  - intros w I J. rewrite A4 in J. apply in_map_iff in J as ([m x] & Em & J). cbn in Em. subst m. apply in_flat_map in J as (b & Ib & J). apply block_metas_keys in J.
    rewrite Forall_forall in B. apply in_rev in Ib. destruct (B b Ib) as (_ & (Nv & _) & _). apply (f_equal m_version) in J. cbn in J. congruence.
Qed.
(** The modules with packages, in order; the replaced ones. *)
Theorem C71_modules :
  forall bs ws, file_ok bs ws ->
    v_list (parse_vendor (modules_txt bs ws)) = map mod_of (filter used bs) /\
    v_replaced (parse_vendor (modules_txt bs ws)) = map mod_of (filter replaced bs) ++ map wild_mod ws.
Proof. intros bs ws H. destruct (parse_file bs ws H) as (v & -> & A & B & _). auto. Qed.
Print Assumptions C71_modules.
Lemma lookup_metas bs : NoDup (map b_path bs) -> forall b, In b bs -> lookup modv_eqb (mod_of b) (flat_map block_metas bs) = lookup modv_eqb (mod_of b) (block_metas b).
Proof.
  induction bs as [|c bs IH]; intros N b I; [destruct I|]. cbn [flat_map map] in *. inversion N as [|? ? N1 N2]; subst. rewrite lookup_app. destruct I as [-> |I].
  - destruct (lookup modv_eqb (mod_of b) (block_metas b)); auto. apply lookup_notin; [apply modv_eqb_eq|]. intros J. apply in_map_iff in J as ([m x] & E & J). cbn in E. subst m. apply in_flat_map in J as (c & Ic & J).
    apply block_metas_keys in J. apply (f_equal m_path) in J. cbn in J. apply N1. rewrite J. now apply in_map.
  - rewrite (lookup_notin modv_eqb modv_eqb_eq _ (block_metas c)); [now apply IH|]. intros J. apply in_map_iff in J as ([m x] & E & J). cbn in E. subst m. apply block_metas_keys in J. apply (f_equal m_path) in J. cbn in J. apply N1. rewrite <- J. now apply in_map.
Qed.
(** What is noted of each module. *)
Theorem C71_metadata :
  forall bs ws, file_ok bs ws ->
    let v := parse_vendor (modules_txt bs ws) in
    (forall b, In b bs -> let m := meta_of v (mod_of b) in
       explicit m = b_explicit b /\ replacement m = repl_mod (b_repl b) /\ meta_go m = match b_go b with Some g => g | None => [] end) /\
    (forall w, In w ws -> replacement (meta_of v (wild_mod w)) = repl_mod (Some (w_repl w))).
Proof.
  intros bs ws H. destruct (parse_file bs ws H) as (v & -> & _ & _ & _ & Q). cbv zeta. destruct H as (B & W & NB & NW). unfold meta_of. rewrite Q. split.
  - intros b I. rewrite lookup_app. assert (Nn : lookup modv_eqb (mod_of b) (rev (map (fun w => (wild_mod w, repl_meta (Some (w_repl w)))) ws)) = None).
    { apply lookup_notin; [apply modv_eqb_eq|]. intros J. apply in_map_iff in J as ([m x] & E & J). cbn in E. subst m. apply in_rev in J. apply in_map_iff in J as (w & E & _). apply (f_equal fst) in E. cbn [fst] in E.
      rewrite Forall_forall in B. destruct (B b I) as (_ & (Nv & _) & _). apply (f_equal m_version) in E. cbn in E. congruence. }
    rewrite Nn. rewrite lookup_metas; [|rewrite map_rev; now apply NoDup_rev|now apply in_rev in I].
    unfold block_metas, want_meta, replaced. destruct (b_explicit b), (b_go b), (b_repl b); cbn [orb app lookup]; rewrite ?modv_refl; auto.
  - intros w I. rewrite lookup_app.
    assert (L : lookup modv_eqb (wild_mod w) (rev (map (fun w => (wild_mod w, repl_meta (Some (w_repl w)))) ws)) = Some (repl_meta (Some (w_repl w)))).
    { clear -NW I. induction ws as [|x ws IH]; [destruct I|]. cbn [map rev] in *. inversion NW as [|? ? N1 N2]; subst. rewrite lookup_app. destruct I as [-> |I].
      - rewrite lookup_notin; [cbn; now rewrite modv_refl|apply modv_eqb_eq|]. intros J. apply in_map_iff in J as ([m y] & E & J). cbn in E. subst m. apply in_rev in J. apply in_map_iff in J as (z & E & J). apply (f_equal (fun e => m_path (fst e))) in E. cbn in E. apply N1. rewrite <- E. now apply in_map.
      - rewrite IH by auto. reflexivity. }
    rewrite L. reflexivity.
Qed.
Print Assumptions C71_metadata.
(** Each package belongs to the module it is listed under. *)
Theorem C71_packages :
  forall bs ws p, file_ok bs ws -> NoDup (flat_map b_pkgs bs) ->
    forall m, lookup eqs p (v_pkgs (parse_vendor (modules_txt bs ws))) = Some m <-> exists b, In b bs /\ In p (b_pkgs b) /\ m = mod_of b.
Proof.
  intros bs ws p H N m. destruct (parse_file bs ws H) as (v & -> & _ & _ & Q & _). rewrite Q. clear Q H.
  set (l := flat_map (fun b => map (fun p => (p, mod_of b)) (b_pkgs b)) bs).
  assert (K : map fst l = flat_map b_pkgs bs) by (unfold l; clear; induction bs as [|b bs IH]; auto; cbn [flat_map]; rewrite map_app, IH, map_map; cbn [fst]; now rewrite map_id).
  assert (S : In (p, m) l <-> exists b, In b bs /\ In p (b_pkgs b) /\ m = mod_of b).
  { unfold l. rewrite in_flat_map. split; intros (b & I & J); exists b; split; auto; [apply in_map_iff in J as (q & E & J); injection E as -> <-; auto|destruct J as [J ->]; apply in_map_iff; eauto]. }
  rewrite <- S. rewrite <- K in N. assert (N' : NoDup (map fst (rev l))) by (rewrite map_rev; now apply NoDup_rev). rewrite (in_rev l). clear -N'. revert N'. generalize (rev l). clear. intros l N.
  induction l as [|[k x] l IH]; cbn [lookup map fst In] in *; [split; [discriminate|intros []]|]. inversion N as [|? ? N1 N2]; subst. destruct (eqs p k) eqn:E.
  - apply eqs_eq in E. subst k. split; [intros [= ->]; now left|]. intros [E|I]; [now injection E as ->|]. exfalso. apply N1. apply (in_map fst) in I. exact I.
  - rewrite IH by auto. split; [auto|]. intros [X|I]; auto. exfalso. injection X as -> ->. now rewrite eqs_refl in E.
Qed.
Print Assumptions C71_packages.

(** A file as go mod vendor writes it. *)
Definition ex_blocks : list block :=
  [{| b_path := #"github.com/a/b"; b_version := #"v1.2.3"; b_repl := Some (#"./b", None); b_explicit := true; b_go := Some #"1.18"; b_pkgs := [#"github.com/a/b"; #"github.com/a/b/c"] |};
   {| b_path := #"golang.org/x/d"; b_version := #"v0.1.0-rc.1"; b_repl := None; b_explicit := false; b_go := None; b_pkgs := [] |};
   {| b_path := #"golang.org/x/e"; b_version := #"v0.4.0"; b_repl := Some (#"example.com/e", Some #"v0.5.0"); b_explicit := false; b_go := Some #"1.17"; b_pkgs := [#"golang.org/x/e/f"] |}].
Definition ex_wilds : list wild := [{| w_path := #"github.com/a/b"; w_repl := (#"./b", None) |}].
Example C71_example :
  file_ok ex_blocks ex_wilds /\ NoDup (flat_map b_pkgs ex_blocks) /\
  map m_path (v_list (parse_vendor (modules_txt ex_blocks ex_wilds))) = [#"github.com/a/b"; #"golang.org/x/e"] /\
  modules_txt ex_blocks ex_wilds = join [newline]
    [#"# github.com/a/b v1.2.3 => ./b"; #"## explicit; go 1.18"; #"github.com/a/b"; #"github.com/a/b/c"; #"# golang.org/x/d v0.1.0-rc.1"; #"# golang.org/x/e v0.4.0 => example.com/e v0.5.0"; #"## go 1.17"; #"golang.org/x/e/f"; #"# github.com/a/b => ./b"; []].
Proof.
  assert (W : forall t, t <> [] -> forallb (fun c => negb (is_space c)) t = true -> word t).
  { intros t N F. split; auto. rewrite forallb_forall in F. apply Forall_forall. intros c I. specialize (F c I). now destruct (is_space c). }
  assert (P : forall t, t <> [] -> forallb (fun c => negb (is_space c)) t = true -> hd " "%char t <> "#"%char -> word t /\ ~ exists r, t = #"#" ++ r).
  { intros t N F H. split; [now apply W|]. intros [r ->]. now apply H. }
  assert (S : forall x, valid_semver x = true -> is_sem_version x) by (intros x V; destruct (parse_semver_complete x) as [E|]; auto; unfold valid_semver in V; now rewrite E in V).
  split; [|split; [|split; reflexivity]].
  - split; [|split; [|split]].
    + repeat constructor; try (apply W; [discriminate|reflexivity]); try (apply S; reflexivity); try (apply P; [discriminate|reflexivity|discriminate]); vm_compute; intuition discriminate.
    + repeat constructor; apply W; try discriminate; reflexivity.
    + repeat constructor; vm_compute; intuition discriminate.
    + repeat constructor; vm_compute; intuition discriminate.
  - repeat constructor; vm_compute; intuition discriminate.
Qed.
Print Assumptions C71_example.
