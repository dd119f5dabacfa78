(** * C70: module and package paths *)
From Coq Require Import Ascii String List Arith Bool Lia.
From Verif Require Import M_Str P_Str M_Module T_Module.
Import ListNotations.
Open Scope nat_scope.
Open Scope list_scope.

(** ** Specification *)
Definition blanks (s : bytes) : Prop := Forall (fun c => c = " "%char \/ c = "009"%char) s.
(** A line that does not declare the module: its first word is another. *)
Definition other_line (l : bytes) : Prop := ~ In newline l /\ forall b r, l = b ++ #"module " ++ r -> ~ blanks b.
(** A module path: no white space, no comment mark, no slash at the end, not empty. *)
Definition plain_path (m : bytes) : Prop := m <> [] /\ (forall c, In c m -> is_space c = false) /\ ~ occurs #"//" m /\ forall a, m <> a ++ #"/".
(** The rest of the line after the path: blanks (a carriage return counts), or blanks and a
    comment. *)
Definition tail_ok (t : bytes) : Prop :=
  ~ In newline t /\ (Forall (fun c => is_space c = true) t \/ exists w c, t = w ++ #"//" ++ c /\ Forall (fun c => is_space c = true) w).
(** A go.mod with one module line. *)
Inductive declares : bytes -> bytes -> Prop :=
| declares_intro before b w m t after :
    Forall other_line before -> blanks b -> blanks w -> plain_path m -> tail_ok t ->
    declares (join [newline] (before ++ (b ++ #"module " ++ w ++ m ++ t) :: after)) m.

(** ** Proofs *)
Lemma trim_left_all p s r : Forall (fun c => p c = true) s -> trim_left_by p (s ++ r) = trim_left_by p r.
Proof. induction 1 as [|c s H F IH]; auto. cbn. now rewrite H. Qed.
Lemma trim_left_stop p c r : p c = false -> trim_left_by p (c :: r) = c :: r. Proof. cbn. intros ->. reflexivity. Qed.
Lemma trim_left_nil p s : Forall (fun c => p c = true) s -> trim_left_by p s = []. Proof. intros F. rewrite <- (app_nil_r s). rewrite trim_left_all; auto. Qed.
Lemma trim_space_mid w m t : m <> [] -> (forall c, In c m -> is_space c = false) -> Forall (fun c => is_space c = true) w -> Forall (fun c => is_space c = true) t -> trim_space (w ++ m ++ t) = m.
Proof.
  intros N H W T. unfold trim_space. rewrite trim_left_all by auto. destruct m as [|c m]; [congruence|]. cbn [app]. rewrite trim_left_stop by (apply H; now left).
  change (c :: m ++ t) with ((c :: m) ++ t). rewrite rev_app_distr, trim_left_all by now apply Forall_rev.
  destruct (rev (c :: m)) as [|d u] eqn:E; [apply (f_equal (@rev _)) in E; rewrite rev_involutive in E; discriminate E|].
  rewrite trim_left_stop; [rewrite <- E; apply rev_involutive|]. apply H. apply in_rev. rewrite E. now left.
Qed.
Lemma is_blank_iff c : is_blank c = true <-> c = " "%char \/ c = "009"%char.
Proof. unfold is_blank. rewrite orb_true_iff, !eqc_eq. reflexivity. Qed.
Lemma trim_blank_prefix l : exists b, l = b ++ trim_left_by is_blank l /\ blanks b.
Proof.
  induction l as [|c l IH]; [exists []; split; auto; constructor|]. cbn [trim_left_by]. destruct (is_blank c) eqn:E; [|exists []; split; auto; constructor].
  destruct IH as (b & E' & B). exists (c :: b). split; [cbn; now f_equal|]. constructor; auto. now apply is_blank_iff.
Qed.
Lemma split_lines ls : ls <> [] -> Forall (fun l => ~ In newline l) ls -> split newline (join [newline] ls) = ls.
Proof. apply split_join. Qed.
Lemma mod_lines_skip before rest : Forall other_line before -> mod_lines (before ++ rest) = mod_lines rest.
Proof.
  induction 1 as [|l before [N H] F IH]; auto. cbn [app mod_lines]. destruct (has_prefix (trim_left_by is_blank l) #"module ") eqn:E; auto.
  exfalso. apply has_prefix_sound in E as [r E]. destruct (trim_blank_prefix l) as (b & Q & B). rewrite E in Q. now apply (H b r).
Qed.
Lemma blank_space b : blanks b -> Forall (fun c => is_space c = true) b.
Proof. apply Forall_impl. intros c [-> | ->]; reflexivity. Qed.
Lemma index_comment m w c : plain_path m -> Forall (fun c => is_space c = true) w -> index ((m ++ w) ++ #"//" ++ c) #"//" = Some (length (m ++ w)).
Proof.
  intros (N & S & O & Z) W. apply (index_least _ #"//" (m ++ w) c); [reflexivity|]. intros a b E. destruct (le_lt_dec (length (m ++ w)) (length a)) as [L|L]; auto. exfalso.
  (* the first slash of the occurrence lies in m, and so does the second, unless w is empty *)
  assert (SL : is_space "/"%char = false) by reflexivity.
  assert (P : exists u, m = a ++ "/"%char :: u).
  { destruct (le_lt_dec (length m) (length a)) as [Q|Q].
    - exfalso. rewrite <- app_assoc in E. destruct (app_cut m (w ++ #"//" ++ c) a (#"//" ++ b) E Q) as (x & -> & Ew). rewrite !app_length in L.
      assert (LL : length x <= length w) by lia. symmetry in Ew. destruct (app_cut x (#"//" ++ b) w (#"//" ++ c) Ew LL) as (y & -> & Ey).
      destruct y as [|d y]; [rewrite app_nil_r in L; lia|]. injection Ey as <- _. rewrite Forall_app in W. destruct W as [_ W]. inversion W; congruence.
    - rewrite <- app_assoc in E. symmetry in E. assert (Q' : length a <= length m) by lia. destruct (app_cut a (#"//" ++ b) m (w ++ #"//" ++ c) E Q') as (x & -> & Ex).
      rewrite app_length in Q. destruct x as [|d x]; [cbn in Q; lia|]. injection Ex as <- _. now exists x. }
  destruct P as [u ->]. rewrite <- !app_assoc in E. apply app_inv_head in E. cbn in E. injection E as E.
  destruct u as [|d u].
  - destruct w as [|d w]; [now apply (Z a)|]. injection E as -> _. inversion W; congruence.
  - injection E as -> _. apply O. exists a, u. reflexivity.
Qed.
Theorem C70_module_partial : forall content m, declares content m -> parse_mod_path content = m.
Proof.
  intros content m D. destruct D as [before b w m t after Fb B W P T]. unfold parse_mod_path.
  (* the lines after the declaration do not matter *)
  assert (G : forall after, exists rest, split newline (join [newline] (before ++ (b ++ #"module " ++ w ++ m ++ t) :: after)) = before ++ (b ++ #"module " ++ w ++ m ++ t) :: rest).
  { set (L := b ++ #"module " ++ w ++ m ++ t). assert (NL : ~ In newline L).
    { destruct P as (_ & S & _). destruct T as [T _]. assert (X : forall s, blanks s -> ~ In newline s) by (intros s F I; unfold blanks in F; rewrite Forall_forall in F; destruct (F _ I); discriminate).
      unfold L. intros I. apply in_app_or in I as [I|I]; [now apply (X b)|]. apply in_app_or in I as [I|I]; [vm_compute in I; intuition discriminate|].
      apply in_app_or in I as [I|I]; [now apply (X w)|]. apply in_app_or in I as [I|I]; [|auto]. apply S in I. discriminate I. }
    clear -Fb NL. intros after. induction Fb as [|x before [Hx _] Fb IH].
    - cbn [app]. destruct after as [|y after]; [exists []; now apply split_noc|].
      exists (split newline (join [newline] (y :: after))). change (join [newline] (L :: y :: after)) with (L ++ newline :: join [newline] (y :: after)). now apply split_cons.
    - destruct IH as [rest E]. exists rest. cbn [app]. change (join [newline] (x :: before ++ L :: after)) with (match before ++ L :: after with [] => x | _ => x ++ [newline] ++ join [newline] (before ++ L :: after) end).
      destruct (before ++ L :: after) as [|z zs] eqn:Q; [destruct before; discriminate Q|]. cbn [app]. rewrite split_cons by auto. now rewrite E. }
  destruct (G after) as [rest ->]. clear G. rewrite mod_lines_skip by auto. cbn [mod_lines].
  assert (E1 : trim_left_by is_blank (b ++ #"module " ++ w ++ m ++ t) = #"module " ++ w ++ m ++ t).
  { rewrite trim_left_all; [reflexivity|]. revert B. apply Forall_impl. intros c. apply is_blank_iff. }
  rewrite E1, has_prefix_app. change (skipn 7 (#"module " ++ w ++ m ++ t)) with (w ++ m ++ t).
  destruct P as (N & S & O & Z). destruct T as [_ [T|(w' & c & -> & T)]].
  - rewrite trim_space_mid by auto using blank_space. apply index_none_iff in O. now rewrite O.
  - assert (E2 : exists c', trim_space (w ++ m ++ w' ++ #"//" ++ c) = (m ++ w') ++ #"//" ++ c').
    { unfold trim_space. rewrite trim_left_all by auto using blank_space. destruct m as [|d m']; [congruence|]. cbn [app]. rewrite trim_left_stop by (apply S; now left).
      change (d :: m' ++ w' ++ #"//" ++ c) with ((d :: m') ++ w' ++ #"//" ++ c). rewrite (app_assoc (d :: m') w'), (app_assoc _ #"//"), rev_app_distr.
      assert (X : exists u, trim_left_by is_space (rev c ++ rev (((d :: m') ++ w') ++ #"//")) = u ++ rev (((d :: m') ++ w') ++ #"//")).
      { clear. generalize ((d :: m') ++ w'). intros q. induction (rev c) as [|e v [u IH]]; [|cbn [app trim_left_by]; destruct (is_space e); [now exists u|now exists (e :: v)]]. exists []. rewrite !app_nil_l, (rev_app_distr _ #"//"). reflexivity. }
      destruct X as [u ->]. exists (rev u). rewrite rev_app_distr, rev_involutive. now rewrite <- app_assoc. }
    destruct E2 as [c' ->]. rewrite index_comment by (repeat split; auto). rewrite firstn_app_exact by reflexivity.
    change (m ++ w') with ([] ++ m ++ w'). apply trim_space_mid; auto.
Qed.
Print Assumptions C70_module_partial.
Example C70_example : declares #"// copied
  	module  example.com/m // v2 next
require (
)
" #"example.com/m".
Proof.
  change #"// copied
  	module  example.com/m // v2 next
require (
)
" with (join [newline] ([#"// copied"] ++ (#"  	" ++ #"module " ++ #" " ++ #"example.com/m" ++ #" // v2 next") :: [#"require ("; #")"; []])).
  constructor.
  - constructor; [|constructor]. split; [vm_compute; intuition discriminate|]. intros b r E B. destruct b as [|c b]; [vm_compute in E; discriminate E|]. injection E as E0 _. subst c. inversion B as [|? ? [X|X]]; discriminate X.
  - repeat (constructor; [vm_compute; tauto|]). constructor.
  - repeat (constructor; [vm_compute; tauto|]). constructor.
  - split; [discriminate|]. split; [intros c I; vm_compute in I; repeat (destruct I as [<-|I]; [reflexivity|]); destruct I|].
    split; [apply index_none_iff; vm_compute; reflexivity|]. intros a E. apply (f_equal (@rev _)) in E. rewrite rev_app_distr in E. vm_compute in E. discriminate E.
  - split; [vm_compute; intuition discriminate|]. right. exists #" ", #" v2 next". split; [reflexivity|repeat constructor].
Qed.
(** Go also takes a tab after the word, a quoted path, and a block. *)
Theorem C70_tab_refuted : ~ (forall m, plain_path m -> parse_mod_path (#"module	" ++ m ++ [newline]) = m).
Proof. intros H. specialize (H #"m"). assert (X : plain_path #"m") by (split; [discriminate|split; [intros c [<-|[]]; reflexivity|split; [apply index_none_iff; reflexivity|intros a E; destruct a as [|? [|]]; discriminate E]]]). apply H in X. vm_compute in X. discriminate X. Qed.
Print Assumptions C70_tab_refuted.
Theorem C70_quoted_refuted : ~ (forall m, plain_path m -> parse_mod_path (#"module ""a""" ++ [newline]) = #"a" /\ parse_mod_path (#"module (" ++ [newline] ++ m ++ [newline] ++ #")") = m).
Proof. intros H. specialize (H #"m"). assert (X : plain_path #"m") by (split; [discriminate|split; [intros c [<-|[]]; reflexivity|split; [apply index_none_iff; reflexivity|intros a E; destruct a as [|? [|]]; discriminate E]]]). apply H in X as [X _]. vm_compute in X. discriminate X. Qed.
Print Assumptions C70_quoted_refuted.

(** The path of the package in a directory. *)
Theorem C70_package_partial :
  forall fs content dir root subs m, root <> [] -> nearest fs dir root subs -> declares (content root) m ->
    resolve_pkg_path fs content dir = Some (m, join #"/" (m :: subs)).
Proof.
  intros fs content dir root subs m N Ne D. unfold resolve_pkg_path, resolve_main_module.
  rewrite (proj2 (C69_nearest_partial fs dir root subs) (conj N Ne)), (C70_module_partial _ _ D).
  assert (M : m <> []) by (destruct D as [? ? ? ? ? ? ? ? ? [M _] _]; exact M). destruct m as [|c m]; [congruence|]. destruct subs; reflexivity.
Qed.
Print Assumptions C70_package_partial.
(** A package is within a module if its path is the module's, or goes on after a slash. *)
Theorem C70_within :
  forall pkg module s, pkg_within_module pkg module = Some s <-> (pkg = module /\ s = []) \/ pkg = module ++ #"/" ++ s.
Proof.
  intros pkg module s. unfold pkg_within_module. split.
  - destruct (length pkg <? length module) eqn:L; [discriminate|]. destruct (has_prefix pkg module) eqn:P; [|discriminate]. cbn [negb].
    apply has_prefix_sound in P as [r ->]. rewrite skipn_app_exact by reflexivity. destruct r as [|c r]; [intros [= <-]; left; now rewrite app_nil_r|].
    destruct (eqc c "/"%char) eqn:E; [|discriminate]. apply eqc_eq in E. subst c. intros [= <-]. now right.
  - intros [[-> ->]| ->].
    + rewrite Nat.ltb_irrefl. assert (P := has_prefix_app [] module). rewrite app_nil_r in P. rewrite P. cbn [negb]. now rewrite skipn_all.
    + assert (L : length (module ++ #"/" ++ s) <? length module = false) by (apply Nat.ltb_ge; rewrite app_length; lia). rewrite L, has_prefix_app. cbn [negb]. rewrite skipn_app_exact by reflexivity. reflexivity.
Qed.
Print Assumptions C70_within.
