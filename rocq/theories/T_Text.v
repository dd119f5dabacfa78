(** * C72-C75: small text edits *)
From Coq Require Import Ascii String List Arith Bool Lia.
From Verif Require Import M_Str P_Str M_Text.
Import ListNotations.
Open Scope nat_scope.
Open Scope list_scope.
Local Notation newline := "010"%char.
Local Notation cr := "013"%char.

(** ** C72: .gitignore *)
(** The lines of a text: its last line need not end with a line break. *)
Inductive lines_of : bytes -> list bytes -> Prop :=
| lines_nil : lines_of [] []
| lines_last l : l <> [] -> ~ In newline l -> lines_of l [l]
| lines_cons l s ls : ~ In newline l -> lines_of s ls -> lines_of (l ++ newline :: s) (l :: ls).
(** A line of .gitignore means the pattern it holds, blanks at its end aside (gitignore(5)). *)
Definition ignores (content pattern : bytes) : Prop :=
  exists ls blanks e, lines_of content ls /\ In (pattern ++ blanks ++ e) ls /\ Forall (eq " "%char) blanks /\ (e = [] \/ e = [cr]).

Lemma lines_fun s : exists ls, lines_of s ls.
Proof.
  remember (length s) as n eqn:E. assert (L : length s <= n) by lia. clear E. revert s L. induction n as [|n IH]; intros s L.
  - destruct s; [exists []; constructor|cbn in L; lia].
  - destruct (index s [newline]) as [i|] eqn:E.
    + assert (O : ~ ~ occurs [newline] s) by (intros O; apply index_none_iff in O; congruence).
      assert (I : In newline s). { destruct (in_dec ascii_dec newline s) as [I|I]; auto. exfalso. apply O. intros Q. now apply occurs_in in Q. }
      destruct (cut_first newline s) as [[a b]|] eqn:C; [|exfalso; apply in_split in I as (a & b & ->); clear -C; induction a as [|x a IH]; cbn in C; [rewrite eqc_refl in C; discriminate|destruct (eqc x newline); [discriminate|destruct (cut_first newline (a ++ newline :: b)) as [[]|]; [discriminate|auto]]]].
      apply cut_first_sound in C as [-> N]. destruct (IH b) as [ls H]; [rewrite app_length in L; cbn in L; lia|]. exists (a :: ls). now constructor.
    + destruct s as [|c s]; [exists []; constructor|]. exists [c :: s]. constructor; [discriminate|]. intros I. apply index_none_iff in E. apply E. apply in_split in I as (a & b & ->). exists a, b. reflexivity.
Qed.
Lemma suffix_tail (x s : bytes) (c : ascii) : s <> [] -> has_suffix (x ++ s) [c] = has_suffix s [c].
Proof. intros N. destruct s as [|d s _] using rev_ind; [congruence|]. now rewrite app_assoc, !has_suffix_last. Qed.
Lemma lines_app_nl s ls p : lines_of s ls -> ~ In newline p ->
  lines_of (s ++ (match s with [] => [] | _ => if has_suffix s [newline] then [] else [newline] end) ++ p ++ [newline]) (ls ++ [p]).
Proof.
  intros H N. induction H as [|l Nl Nn|l s ls Nn H IH].
  - cbn [app]. apply (lines_cons p [] []); auto. constructor.
  - destruct l as [|c l0] eqn:El; [congruence|]. rewrite <- El in *. assert (S : has_suffix l [newline] = false).
    { destruct (has_suffix l [newline]) eqn:S; auto. apply has_suffix_iff in S as [r ->]. exfalso. apply Nn. apply in_or_app. right. now left. }
    rewrite S. change ([newline] ++ p ++ [newline]) with (newline :: p ++ [newline]). cbn [app]. apply (lines_cons l (p ++ [newline]) [p]); auto. apply (lines_cons p [] []); auto. constructor.
  - rewrite <- app_assoc. cbn [app]. assert (E : match l ++ newline :: s with [] => [] | _ => if has_suffix (l ++ newline :: s) [newline] then [] else [newline] end = match s with [] => [] | _ => if has_suffix s [newline] then [] else [newline] end).
    { destruct s as [|c s].
      - replace (has_suffix (l ++ [newline]) [newline]) with true by (symmetry; apply has_suffix_iff; eauto). now destruct l.
      - assert (Q : has_suffix (l ++ newline :: c :: s) [newline] = has_suffix (c :: s) [newline]).
        { change (l ++ newline :: c :: s) with (l ++ [newline] ++ c :: s). rewrite app_assoc. now apply suffix_tail. }
        rewrite Q. now destruct l. }
    rewrite E. apply lines_cons; auto.
Qed.
(** If the pattern is added it becomes the last line and all other lines stay; otherwise nothing changes. *)
Theorem C72_added :
  forall content pattern ls, ~ In newline pattern -> lines_of content ls ->
    let '(c, updated) := gitignore_add content pattern in
    (updated = true -> lines_of c (ls ++ [pattern])) /\ (updated = false -> c = content).
Proof.
  intros content pattern ls N L. unfold gitignore_add. assert (Q := lines_app_nl content ls pattern L N).
  destruct (index content pattern); [destruct (is_directive_end _)|]; split; intros E; auto; discriminate E.
Qed.
Print Assumptions C72_added.
(** A pattern that does not occur is added. *)
Theorem C72_effective_partial :
  forall content pattern, ~ In newline pattern -> ~ occurs pattern content -> ignores (fst (gitignore_add content pattern)) pattern.
Proof.
  intros content pattern N O. unfold gitignore_add. apply index_none_iff in O. rewrite O. cbn [fst]. destruct (lines_fun content) as [ls L].
  exists (ls ++ [pattern]), [], []. split; [now apply lines_app_nl|]. split; [rewrite !app_nil_r; apply in_or_app; right; now left|]. split; auto.
Qed.
Print Assumptions C72_effective_partial.
(** Running it again changes nothing, so the file does not grow. *)
Theorem C72_once :
  forall content pattern, pattern <> [] -> gitignore_add (fst (gitignore_add content pattern)) pattern = (fst (gitignore_add content pattern), false).
Proof.
  intros content pattern N.
  assert (G : forall u, gitignore_add (u ++ pattern ++ [newline]) pattern = (u ++ pattern ++ [newline], false)).
  { intros u. unfold gitignore_add. destruct (index (u ++ pattern ++ [newline]) pattern) as [i|] eqn:E.
    - assert (D : is_directive_end (skipn (i + length pattern) (u ++ pattern ++ [newline])) = true); [|now rewrite D].
      unfold is_directive_end. set (t := skipn _ _). assert (T : exists x, u ++ pattern ++ [newline] = x ++ skip_blanks t).
      { assert (K : forall t, exists y, t = y ++ skip_blanks t). { clear. induction t as [|c t [y IH]]; [now exists []|]. cbn [skip_blanks]. destruct (_ || _); [exists (c :: y); cbn; now rewrite <- IH|now exists []]. }
        destruct (K t) as [y Ey]. exists (firstn (i + length pattern) (u ++ pattern ++ [newline]) ++ y). rewrite <- app_assoc, <- Ey. unfold t. symmetry. apply firstn_skipn. }
      destruct T as [x T]. destruct (skip_blanks t) as [|c r] eqn:S; [reflexivity|]. assert (H : has_suffix (c :: r) [newline] = true).
      { rewrite <- (suffix_tail x) by discriminate. rewrite <- T, app_assoc, has_suffix_last. apply eqc_refl. }
      rewrite H. now destruct (has_suffix (c :: r) #"#").
    - exfalso. apply index_none_iff in E. apply E. exists u, [newline]. reflexivity. }
  destruct (gitignore_add content pattern) as [c b] eqn:E. cbn [fst]. unfold gitignore_add in E.
  assert (A : (c, b) = (content, false) \/ exists u, c = u ++ pattern ++ [newline]).
  { destruct (index content pattern); [destruct (is_directive_end _)|]; injection E as <- <-; auto; right; rewrite app_assoc; eauto. }
  destruct A as [A|[u ->]]; [|apply G]. injection A as -> ->. exact E.
Qed.
Print Assumptions C72_once.
Definition gen_pattern : bytes := #"**/.xgo/gen".
Example C72_example :
  gitignore_add (#"/bin" ++ [newline] ++ #"*.o") gen_pattern = (#"/bin" ++ [newline] ++ #"*.o" ++ [newline] ++ gen_pattern ++ [newline], true) /\
  ~ occurs gen_pattern (#"/bin" ++ [newline] ++ #"*.o").
Proof. split; [reflexivity|]. apply index_none_iff. reflexivity. Qed.
Lemma lines_det s ls : lines_of s ls -> forall ls', lines_of s ls' -> ls = ls'.
Proof.
  induction 1 as [|l Nl Nn|l s ls Nn H IH]; intros ls' H'.
  - inversion H'; subst; auto; [congruence|]. destruct l; discriminate.
  - inversion H'; subst; auto; [congruence|]. exfalso. apply Nn. apply in_or_app. right. now left.
  - remember (l ++ newline :: s) as t eqn:E. destruct H' as [|l' Nl' Nn'|l' s' ls' Nn' H'].
    + destruct l; discriminate.
    + subst. exfalso. apply Nn'. apply in_or_app. right. now left.
    + assert (X : l' = l /\ s' = s). { pose proof (cut_first_some newline l s Nn) as A. rewrite <- E, cut_first_some in A by auto. injection A as -> ->. auto. }
      destruct X as [-> ->]. f_equal. now apply IH.
Qed.
(** It is taken for present in a comment, as a negated pattern, and as the beginning of a longer one. *)
Theorem C72_effective_refuted :
  ~ (forall content, ignores (fst (gitignore_add content gen_pattern)) gen_pattern) /\
  (forall line, In line [#"# **/.xgo/gen"; #"!**/.xgo/gen"; #"**/.xgo/gen2"] ->
     gitignore_add (line ++ [newline]) gen_pattern = (line ++ [newline], false)).
Proof.
  assert (A : forall line, In line [#"# **/.xgo/gen"; #"!**/.xgo/gen"; #"**/.xgo/gen2"] -> gitignore_add (line ++ [newline]) gen_pattern = (line ++ [newline], false)) by (intros line [<-|[<-|[<-|[]]]]; reflexivity).
  split; [|exact A]. intros H. specialize (H (#"!**/.xgo/gen" ++ [newline])). rewrite A in H by (cbn; auto). cbn [fst] in H. destruct H as (ls & b & e & L & I & _ & _).
  assert (L' : lines_of (#"!**/.xgo/gen" ++ [newline]) [#"!**/.xgo/gen"]) by (apply (lines_cons _ [] []); [vm_compute; intuition discriminate|constructor]).
  rewrite (lines_det _ _ L _ L') in I. destruct I as [I|[]]. discriminate I.
Qed.
Print Assumptions C72_effective_refuted.

(** ** C73: the blank import *)
Definition has_no (w s : bytes) : Prop := ~ occurs w s.
Lemma package_unbordered : unbordered #"package ".
Proof. apply (unbordered_last " "%char #"package"). vm_compute. intuition discriminate. Qed.
Lemma index_char c a b : ~ In c a -> index (a ++ c :: b) [c] = Some (length a).
Proof. intros N. apply (index_unbordered a [c] b); [apply (unbordered_first c []); intros []|]. intros O. now apply occurs_in in O. Qed.
Lemma index_char_none c s : ~ In c s -> index s [c] = None.
Proof. intros N. apply index_none_iff. intros O. now apply occurs_in in O. Qed.
(** The import is put at the end of the package clause, so that no line moves: [header] is what
    stands before the clause, [name] the rest of its line, [eol] its line break. *)
Definition semi (clause : bytes) : bytes := if has_suffix clause #";" then [] else #";".
Theorem C73_import_partial :
  forall header name eol rest, ~ occurs #"package " header -> ~ In newline name -> ~ In cr name ->
    (eol = [cr; newline] \/ eol = [newline] /\ ~ In cr rest) ->
    add_blank_import (header ++ #"package " ++ name ++ eol ++ rest) = Some (header ++ (#"package " ++ name) ++ semi (#"package " ++ name) ++ trace_import ++ eol ++ rest).
Proof.
  intros header name eol rest H N R E. unfold add_blank_import. rewrite (index_unbordered header #"package ") by (auto using package_unbordered).
  rewrite skipn_app_exact by reflexivity. set (cl := #"package " ++ name). change (#"package " ++ name ++ eol ++ rest) with (cl ++ eol ++ rest).
  assert (Nn : ~ In newline cl) by (unfold cl; intros I; apply in_app_or in I as [I|I]; auto; vm_compute in I; intuition discriminate).
  assert (Nr : ~ In cr cl) by (unfold cl; intros I; apply in_app_or in I as [I|I]; auto; vm_compute in I; intuition discriminate).
  assert (Lc : 0 < length cl) by (cbn; lia).
  assert (F : forall n base, base = length header + length cl -> n = base -> (let base := n in let sep := if (0 <? base) && eqc (nth (base - 1) (header ++ cl ++ eol ++ rest) newline) ";"%char then [] else #";" in
     Some (firstn base (header ++ cl ++ eol ++ rest) ++ (sep ++ trace_import) ++ skipn base (header ++ cl ++ eol ++ rest))) = Some (header ++ cl ++ semi cl ++ trace_import ++ eol ++ rest)).
  { intros n base B ->. cbv zeta. assert (Z : (0 <? base) = true) by (apply Nat.ltb_lt; lia). rewrite Z. cbn [andb]. unfold semi.
    assert (S : has_suffix cl #";" = eqc (nth (base - 1) (header ++ cl ++ eol ++ rest) newline) ";"%char).
    { destruct cl as [|d t _] using rev_ind; [cbn in Lc; lia|]. change #";" with [";"%char]. rewrite has_suffix_last. f_equal. rewrite app_length in B. cbn [length] in B.
      rewrite app_nth2, <- app_assoc, app_nth2 by lia. replace (base - 1 - length header - length t) with 0 by lia. reflexivity. }
    rewrite S. replace (firstn base (header ++ cl ++ eol ++ rest)) with (header ++ cl) by (rewrite app_assoc; symmetry; apply firstn_app_exact; rewrite app_length; lia).
    replace (skipn base (header ++ cl ++ eol ++ rest)) with (eol ++ rest) by (rewrite (app_assoc header); symmetry; apply skipn_app_exact; rewrite app_length; lia). rewrite <- !app_assoc. reflexivity. }
  destruct E as [-> | [-> Nrest]].
  - change ([cr; newline] ++ rest) with (cr :: newline :: rest). rewrite (index_char cr cl) by auto. assert (Z : (0 <? length cl) = true) by (apply Nat.ltb_lt; lia). rewrite Z.
    replace (skipn (length cl + 1) (cl ++ cr :: newline :: rest)) with (newline :: rest) by (change (cl ++ cr :: newline :: rest) with (cl ++ [cr] ++ newline :: rest); rewrite app_assoc; symmetry; apply skipn_app_exact; rewrite app_length; cbn; lia).
    change (newline :: rest) with ([] ++ newline :: rest) at 1. rewrite (index_char newline []) by auto. cbn [length]. apply (F _ (length header + length cl)); auto.
  - change ([newline] ++ rest) with (newline :: rest). rewrite index_char_none; [|intros I; apply in_app_or in I as [I|[I|I]]; auto; discriminate I].
    rewrite index_char by auto. apply (F _ (length header + length cl)); auto.
Qed.
Print Assumptions C73_import_partial.
(** A file of one line. *)
Theorem C73_one_line :
  forall content, occurs #"package " content -> ~ In newline content -> add_blank_import content = Some (content ++ #";" ++ trace_import).
Proof.
  intros content O N. unfold add_blank_import. destruct (index content #"package ") as [i|] eqn:E; [|now apply index_none_iff in E].
  assert (S : forall k s, ~ In newline s -> ~ In newline (skipn k s)) by (intros k s H I; apply H; rewrite <- (firstn_skipn k s); apply in_or_app; now right).
  destruct (index (skipn i content) [cr]) as [r|]; [destruct (0 <? r)|]; rewrite index_char_none; auto.
Qed.
Print Assumptions C73_one_line.
(** Whatever the file holds, what is put in has no line break and nothing is taken away, so that every line
    keeps its number. *)
Theorem C73_lines :
  forall content c, add_blank_import content = Some c ->
    exists a q b, content = a ++ b /\ c = a ++ q ++ b /\ ~ In newline q /\ ~ In cr q /\ (q = trace_import \/ q = #";" ++ trace_import).
Proof.
  intros content c E. assert (T : forall q, q = trace_import \/ q = #";" ++ trace_import -> ~ In newline q /\ ~ In cr q) by (intros q [-> | ->]; vm_compute; intuition discriminate).
  assert (G : forall n q, q = trace_import \/ q = #";" ++ trace_import -> c = firstn n content ++ q ++ skipn n content ->
    exists a q b, content = a ++ b /\ c = a ++ q ++ b /\ ~ In newline q /\ ~ In cr q /\ (q = trace_import \/ q = #";" ++ trace_import)).
  { intros n q Q ->. exists (firstn n content), q, (skipn n content). destruct (T q Q). rewrite firstn_skipn. auto. }
  unfold add_blank_import in E. destruct (index content #"package ") as [i|]; [|discriminate].
  destruct (match index (skipn i content) [cr] with Some r => _ | None => _ end) as [base sub]. destruct (index sub [newline]) as [n|]; cbv zeta in E; injection E as <-.
  - eapply (G (base + n)); [|reflexivity]. destruct (_ && _); auto.
  - apply (G (length content) (#";" ++ trace_import)); auto. now rewrite firstn_all, skipn_all, app_nil_r.
Qed.
Print Assumptions C73_lines.
Theorem C73_declined : forall content, add_blank_import content = None <-> ~ occurs #"package " content.
Proof.
  intros content. unfold add_blank_import. rewrite <- index_none_iff. destruct (index content #"package ") as [i|]; [|tauto]. split; [|discriminate].
  destruct (match index (skipn i content) [cr] with Some r => _ | None => _ end) as [base sub]. destruct (index sub [newline]); discriminate.
Qed.
Print Assumptions C73_declined.
Example C73_example :
  ~ occurs #"package " (#"// Package m is" ++ [newline]) /\ ~ In newline #"main" /\ ~ In cr #"main" /\
  add_blank_import (#"// Package m is" ++ [newline] ++ #"package main" ++ [cr; newline] ++ #"func main() {}") =
    Some (#"// Package m is" ++ [newline] ++ #"package main;import _ ""github.com/xhd2015/xgo/runtime/trace""" ++ [cr; newline] ++ #"func main() {}").
Proof. split; [apply index_none_iff; reflexivity|]. split; [vm_compute; intuition discriminate|]. split; [vm_compute; intuition discriminate|reflexivity]. Qed.
(** It goes into a comment if one before the clause says "package ", or if one follows the clause
    on its line; and into the middle of another line if a carriage return follows later. *)
Theorem C73_import_refuted :
  ~ (forall header, exists c, add_blank_import (#"//" ++ header ++ [newline] ++ #"package main" ++ [newline]) = Some (#"//" ++ header ++ [newline] ++ #"package main" ++ c)) /\
  (forall comment, ~ In newline comment -> ~ In cr comment -> ~ occurs #"package " comment ->
     exists s, add_blank_import (#"// this package " ++ comment ++ [newline] ++ #"package main" ++ [newline]) = Some (#"// this package " ++ comment ++ s ++ trace_import ++ [newline] ++ #"package main" ++ [newline]) /\ (s = [] \/ s = #";")) /\
  (forall comment, ~ In newline comment -> ~ In cr comment ->
     exists s, add_blank_import (#"package main // " ++ comment ++ [newline]) = Some (#"package main // " ++ comment ++ s ++ trace_import ++ [newline]) /\ (s = [] \/ s = #";")) /\
  add_blank_import (#"package main" ++ [newline] ++ #"var s = `" ++ [cr] ++ #"ab" ++ [newline] ++ #"`" ++ [newline]) =
    Some (#"package main" ++ [newline] ++ #"var s = `" ++ [cr] ++ #"a;" ++ trace_import ++ #"b" ++ [newline] ++ #"`" ++ [newline]).
Proof.
  assert (S : forall x, semi x = [] \/ semi x = #";") by (intros x; unfold semi; destruct (has_suffix x #";"); auto).
  assert (B : forall comment, ~ In newline comment -> ~ In cr comment -> ~ occurs #"package " comment ->
     exists s, add_blank_import (#"// this package " ++ comment ++ [newline] ++ #"package main" ++ [newline]) = Some (#"// this package " ++ comment ++ s ++ trace_import ++ [newline] ++ #"package main" ++ [newline]) /\ (s = [] \/ s = #";")).
  { intros k Kn Kr _. pose proof (C73_import_partial #"// this " k [newline] (#"package main" ++ [newline])) as H. eexists. split; [|apply S].
    apply H; auto; [apply index_none_iff; reflexivity|]. right. split; auto. vm_compute. intuition discriminate. }
  split; [|split; [exact B|split; [|reflexivity]]].
  - intros H. destruct (H #" this package is") as [c E]. vm_compute in E. discriminate E.
  - intros k Kn Kr. pose proof (C73_import_partial [] (#"main // " ++ k) [newline] []) as H. eexists. split; [|apply S].
    apply H; [apply index_none_iff; reflexivity| | |right; split; auto]; intros I; apply in_app_or in I as [I|I]; auto; vm_compute in I; intuition discriminate.
Qed.
Print Assumptions C73_import_refuted.

(** ** C74: batches of arguments *)
Lemma firstn_add {A} : forall a b (l : list A), firstn (a + b) l = firstn a l ++ firstn b (skipn a l).
Proof. induction a as [|a IH]; intros b l; [reflexivity|]. destruct l as [|x l]; [cbn; now rewrite firstn_nil|]. cbn. now rewrite IH. Qed.
Lemma concat_batches {A} (limit : nat) : forall n (args : list A), concat (map (fun i => firstn limit (skipn (i * limit) args)) (seq 0 n)) = firstn (n * limit) args.
Proof.
  induction n as [|n IH]; intros args; [reflexivity|]. rewrite seq_S, map_app, concat_app, IH. cbn [map concat plus]. rewrite app_nil_r.
  replace (S n * limit) with (n * limit + limit) by lia. now rewrite firstn_add.
Qed.
(** No argument is lost, doubled or moved, no batch is larger than the limit, and there are no empty batches
    and no more batches than needed. *)
Theorem C74_batches :
  forall (A : Type) (args : list A) limit, 0 < limit ->
    concat (split_args_batch args limit) = args /\
    (forall b, In b (split_args_batch args limit) -> length b <= limit /\ (args <> [] -> b <> [])) /\
    (length (split_args_batch args limit) - 1) * limit < length args + (if length args =? 0 then 1 else 0).
Proof.
  intros A args limit P. unfold split_args_batch. destruct (length args <=? limit) eqn:L; [apply Nat.leb_le in L|apply Nat.leb_gt in L].
  - split; [apply app_nil_r|]. split; [intros b [<-|[]]; auto|]. cbn. destruct (length args); cbn; lia.
  - assert (D := Nat.div_mod (length args) limit ltac:(lia)). assert (M := Nat.mod_upper_bound (length args) limit ltac:(lia)). set (n := length args / limit) in *. assert (N1 : 1 <= n) by (destruct n; lia).
    assert (Z : (length args =? 0) = false) by (apply Nat.eqb_neq; lia). rewrite Z. split; [|split].
    + rewrite concat_app, concat_batches. destruct (0 <? length args - n * limit) eqn:R; cbn [concat]; [rewrite app_nil_r; apply firstn_skipn|].
      apply Nat.ltb_ge in R. rewrite app_nil_r. apply firstn_all2. lia.
    + intros b I. apply in_app_or in I as [I|I].
      * apply in_map_iff in I as (i & <- & I). apply in_seq in I. split; [rewrite firstn_length; lia|]. intros _ E. apply (f_equal (@length A)) in E. rewrite firstn_length, skipn_length in E. cbn in E. nia.
      * destruct (0 <? length args - n * limit) eqn:R; [|destruct I]. apply Nat.ltb_lt in R. destruct I as [<-|[]]. split; [rewrite skipn_length; nia|]. intros _ E. apply (f_equal (@length A)) in E. rewrite skipn_length in E. cbn in E. lia.
    + rewrite app_length, map_length, seq_length. destruct (0 <? length args - n * limit) eqn:R; [apply Nat.ltb_lt in R|apply Nat.ltb_ge in R]; cbn [length]; nia.
Qed.
Print Assumptions C74_batches.
Example C74_example : split_args_batch [1; 2; 3; 4; 5; 6; 7] 3 = [[1; 2; 3]; [4; 5; 6]; [7]] /\ split_args_batch [1; 2; 3; 4] 2 = [[1; 2]; [3; 4]].
Proof. split; reflexivity. Qed.
