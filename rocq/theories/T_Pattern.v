(** * C33: glob patterns match what they say.
    The specification below is on the characters of pattern and path only. *)
From Coq Require Import List Arith Bool Lia.
From Verif Require Import M_Pattern.
Import ListNotations.

(** ** Specification *)
(** The elements of a path: what stands between slashes, empty parts not counting. *)
Inductive elems : text -> list text -> Prop :=
| el_nil : elems [] []
| el_slash p l : elems p l -> elems (47 :: p) l
| el_last s : s <> [] -> ~ In 47 s -> elems s [s]
| el_cons s p l : s <> [] -> ~ In 47 s -> elems p l -> elems (s ++ 47 :: p) (s :: l).
(** One element: `*` stands for any run of characters, other characters for themselves. *)
Inductive seg_match : text -> text -> Prop :=
| sm_nil : seg_match [] []
| sm_char c p s : c <> 42 -> seg_match p s -> seg_match (c :: p) (c :: s)
| sm_star p run s : seg_match p s -> seg_match (42 :: p) (run ++ s).
(** The element `**` stands for any run of elements. *)
Inductive path_match : list text -> list text -> Prop :=
| pm_nil : path_match [] []
| pm_any P run S : path_match P S -> path_match ([42; 42] :: P) (run ++ S)
| pm_seg p P s S : p <> [42; 42] -> seg_match p s -> path_match P S -> path_match (p :: P) (s :: S).
Definition glob (pattern path : text) : Prop :=
  exists P S, elems pattern P /\ elems path S /\ path_match P S.
(** The pattern matches some leading elements of the path. *)
Definition glob_prefix (pattern path : text) : Prop :=
  exists P S1 S2, elems pattern P /\ elems path (S1 ++ S2) /\ path_match P S1.

(** ** Elements *)
Definition nonempty (seg : text) : bool := match seg with [] => false | _ => true end.
Lemma split_slash_nonempty s : split_slash s <> [].
Proof. destruct s as [|x s]; simpl; [discriminate|]. destruct (x =? slash); [discriminate|]. now destruct (split_slash s). Qed.
Lemma split_slash_no s : ~ In 47 s -> split_slash s = [s].
Proof.
  induction s as [|x s IH]; simpl; auto. intros H. destruct (Nat.eqb_spec x slash) as [E|E]; [unfold slash in E; subst; tauto|].
  now rewrite IH by tauto.
Qed.
Lemma split_slash_cons a s : ~ In 47 a -> split_slash (a ++ 47 :: s) = a :: split_slash s.
Proof.
  induction a as [|x a IH]; intros H; [reflexivity|]. simpl. destruct (Nat.eqb_spec x slash) as [E|E]; [unfold slash in E; subst; simpl in H; tauto|].
  rewrite IH; auto. simpl in H. tauto.
Qed.
Lemma elems_split p l : elems p l -> split_path p = l.
Proof.
  unfold split_path. induction 1 as [|p l H IH|s N S|s p l N S H IH]; auto.
  - rewrite split_slash_no by auto. destruct s; [congruence|reflexivity].
  - rewrite split_slash_cons by auto. destruct s; [congruence|]. simpl. now rewrite <- IH.
Qed.
Lemma first_slash (s : text) : ~ In 47 s \/ exists a b, s = a ++ 47 :: b /\ ~ In 47 a.
Proof.
  induction s as [|x s IH]; [now left|]. destruct (Nat.eq_dec x 47) as [->|N].
  - right. exists [], s. split; auto.
  - destruct IH as [I|(a & b & -> & I)].
    + left. intros [E|J]; auto.
    + right. exists (x :: a), b. split; auto. intros [E|J]; auto.
Qed.
Lemma split_elems p : elems p (split_path p).
Proof.
  assert (G : forall n p, length p <= n -> elems p (split_path p)).
  { induction n as [|n IH]; intros q L.
    - destruct q; [constructor|simpl in L; lia].
    - destruct (first_slash q) as [I|(a & b & -> & I)].
      + destruct q as [|x q]; [constructor|]. replace (split_path (x :: q)) with [x :: q].
        * apply el_last; auto. discriminate.
        * symmetry. unfold split_path. now rewrite split_slash_no.
      + rewrite app_length in L. simpl in L. assert (E : elems b (split_path b)) by (apply IH; lia).
        destruct a as [|x a].
        * now apply el_slash.
        * replace (split_path ((x :: a) ++ 47 :: b)) with ((x :: a) :: split_path b).
          -- apply el_cons; auto. discriminate.
          -- unfold split_path. rewrite split_slash_cons by auto. reflexivity. }
  apply (G (length p)). auto.
Qed.
Lemma elems_nonempty p l : elems p l -> Forall (fun s => s <> []) l.
Proof. induction 1; auto. Qed.
Lemma eqt_eq a b : eqt a b = true <-> a = b.
Proof.
  revert b. induction a as [|x a IH]; intros [|y b]; simpl; split; intros H; try discriminate; auto.
  - apply andb_prop in H as [H1 H2]. apply Nat.eqb_eq in H1. apply IH in H2. congruence.
  - injection H as -> ->. rewrite Nat.eqb_refl. simpl. now apply IH.
Qed.

Lemma starts_with_iff s p : starts_with s p = true <-> exists r, s = p ++ r.
Proof.
  revert s. induction p as [|x p IH]; intros s; simpl.
  - split; [intros _; now exists s|reflexivity].
  - destruct s as [|y s].
    + split; [discriminate|]. intros [r E]. discriminate.
    + rewrite andb_true_iff, Nat.eqb_eq, IH. split.
      * intros [-> [r ->]]. now exists r.
      * intros [r E]. injection E as -> ->. split; auto. now exists r.
Qed.
Lemma match_star es pre s : match_runes (Star :: es) pre s = true <-> exists a b, s = a ++ b /\ match_runes es pre b = true.
Proof.
  cbn [match_runes]. induction s as [|x s IH].
  - destruct (match_runes es pre []) eqn:E.
    + split; [intros _|auto]. exists [], []. auto.
    + split; [discriminate|]. intros (a & b & E1 & E2). destruct a; [|discriminate]. simpl in E1. subst. congruence.
  - destruct (match_runes es pre (x :: s)) eqn:E.
    + split; [intros _|auto]. exists [], (x :: s). auto.
    + rewrite IH. split.
      * intros (a & b & -> & M). now exists (x :: a), b.
      * intros (a & b & E1 & M). destruct a as [|y a]; [simpl in E1; subst; congruence|]. injection E1 as -> ->. now exists a, b.
Qed.
Lemma match_plain_full p es s : match_runes (Plain p :: es) false s = true <-> s = p.
Proof.
  simpl. rewrite andb_true_iff, Nat.eqb_eq, starts_with_iff. split.
  - intros [L [r ->]]. rewrite app_length in L. destruct r; [now rewrite app_nil_r|simpl in L; lia].
  - intros ->. split; auto. exists []. now rewrite app_nil_r.
Qed.
Lemma match_plain_prefix p es s : match_runes (Plain p :: es) true s = true <-> exists r, s = p ++ r.
Proof.
  simpl. rewrite andb_true_iff, Nat.leb_le, starts_with_iff. split; [tauto|]. intros [r ->]. split; [rewrite app_length; lia|now exists r].
Qed.

(** ** Characters *)
Lemma seg_match_lit lit s : ~ In 42 lit -> (seg_match lit s <-> s = lit).
Proof.
  revert s. induction lit as [|x lit IH]; intros s H.
  - split; [inversion 1; auto|]. intros ->. constructor.
  - simpl in H. split.
    + inversion 1; subst; [|tauto]. f_equal. apply IH; auto.
    + intros ->. apply sm_char; [intros ->; tauto|]. apply IH; auto.
Qed.
Lemma seg_match_stars k lit s : ~ In 42 lit ->
  (seg_match (repeat 42 (S k) ++ lit) s <-> exists a, s = a ++ lit).
Proof.
  intros H. revert s. induction k as [|k IH]; intros s.
  - simpl. split.
    + inversion 1; subst; [congruence|]. match goal with M : seg_match lit ?x |- _ => apply (proj1 (seg_match_lit lit x H)) in M; subst end. now exists run.
    + intros [a ->]. apply sm_star. now apply seg_match_lit.
  - change (repeat 42 (S (S k)) ++ lit) with (42 :: (repeat 42 (S k) ++ lit)). split.
    + inversion 1; subst; [congruence|]. match goal with M : seg_match _ ?x |- _ => apply (proj1 (IH x)) in M as [a ->] end.
      exists (run ++ a). now rewrite app_assoc.
    + intros [a ->]. apply sm_star. apply IH. now exists [].
Qed.

(** ** Compiling *)
Lemma compile_lit lit cur prev : ~ In 42 lit -> rev cur ++ lit <> [] -> compile_loop lit cur prev = [Plain (rev cur ++ lit)].
Proof.
  revert cur prev. induction lit as [|x lit IH]; intros cur prev H N; simpl.
  - rewrite app_nil_r in *. destruct cur; [now simpl in N|auto].
  - simpl in H. destruct (Nat.eqb_spec x star) as [E|E]; [unfold star in E; subst; tauto|]. simpl.
    rewrite IH; [|tauto|simpl; rewrite <- app_assoc; destruct (rev cur); discriminate]. simpl. now rewrite <- app_assoc.
Qed.
Lemma compile_stars_true k lit : ~ In 42 lit -> lit <> [] -> compile_loop (repeat 42 k ++ lit) [] true = [Plain lit].
Proof. intros H N. induction k as [|k IH]; simpl; auto. now apply (compile_lit lit []). Qed.
Lemma compile_stars k lit : ~ In 42 lit -> lit <> [] -> compile_loop (repeat 42 (S k) ++ lit) [] false = [Star; Plain lit].
Proof. intros H N. simpl. now rewrite compile_stars_true. Qed.
Lemma compile_pure_true k : compile_loop (repeat 42 k) [] true = [].
Proof. induction k; simpl; auto. Qed.
Lemma compile_pure k : compile_loop (repeat 42 (S k)) [] false = [Star].
Proof. simpl. now rewrite compile_pure_true. Qed.

(** An element of the form `lit`, `*lit` (or `**lit`...), where lit has no star. *)
Definition tail_only (p : text) : Prop := exists k lit, p = repeat 42 k ++ lit /\ lit <> [] /\ ~ In 42 lit.
Definition pure_star (p : text) : Prop := exists k, p = repeat 42 (S k) /\ p <> [42; 42].

Lemma tail_only_not_dstar p : tail_only p -> p <> [42; 42].
Proof.
  intros (k & lit & -> & N & H) E. destruct k as [|[|[|k]]]; simpl in E.
  - subst. simpl in H. tauto.
  - destruct lit as [|x lit]; [congruence|]. injection E as -> ->. simpl in H. tauto.
  - injection E as E. congruence.
  - discriminate.
Qed.
Lemma compile_expr_dstar : compile_expr [42; 42] = {| double_star := true; elements := [] |}.
Proof. reflexivity. Qed.
Lemma compile_expr_other p : p <> [] -> p <> [42; 42] -> compile_expr p = {| double_star := false; elements := compile_loop p [] false |}.
Proof.
  intros N H. unfold compile_expr. destruct p as [|x p]; [congruence|]. destruct (eqt (x :: p) [star; star]) eqn:E; auto.
  apply eqt_eq in E. now destruct H.
Qed.
Lemma tail_only_full p s : tail_only p -> (match_runes (compile_loop p [] false) false s = true <-> seg_match p s).
Proof.
  intros (k & lit & -> & N & H). destruct k as [|k].
  - simpl repeat. rewrite app_nil_l. rewrite (compile_lit lit []) by auto. simpl rev. rewrite app_nil_l, match_plain_full, seg_match_lit by auto. tauto.
  - rewrite compile_stars, match_star by auto. rewrite seg_match_stars by auto. split.
    + intros (a & b & -> & M). apply match_plain_full in M. subst. now exists a.
    + intros [a ->]. exists a, lit. split; auto. now apply match_plain_full.
Qed.
Lemma tail_only_empty p : tail_only p -> match_empty {| double_star := false; elements := compile_loop p [] false |} = false.
Proof.
  intros (k & lit & -> & N & H). unfold match_empty. cbn [elements]. destruct k as [|k].
  - simpl repeat. rewrite app_nil_l. now rewrite (compile_lit lit []) by auto.
  - now rewrite compile_stars by auto.
Qed.
Lemma pure_star_full p s : pure_star p -> match_runes (compile_loop p [] false) false s = true /\ seg_match p s.
Proof.
  intros (k & -> & _). rewrite compile_pure. split.
  - apply match_star. exists s, []. now rewrite app_nil_r.
  - pose proof (seg_match_stars k [] s (fun x => x)) as H. rewrite app_nil_r in H. apply H. exists s. now rewrite app_nil_r.
Qed.

(** ** Paths *)
Lemma do_match_dstar e rest segs pre : double_star e = true ->
  (do_match (e :: rest) segs pre = true <-> exists a b, segs = a ++ b /\ do_match rest b pre = true).
Proof.
  intros H. cbn [do_match]. rewrite H. induction segs as [|s segs IH].
  - split.
    + intros M. now exists [], [].
    + intros (a & b & E & M). destruct a; [|discriminate]. simpl in E. now subst.
  - match goal with |- context [if ?x then true else _] => destruct x eqn:E end.
    + split; [intros _|reflexivity]. destruct (proj1 IH eq_refl) as (a & b & -> & M). now exists (s :: a), b.
    + split.
      * intros M. now exists [], (s :: segs).
      * intros (a & b & E1 & M). destruct a as [|y a]; [simpl in E1; now subst|]. injection E1 as -> ->.
        exfalso. enough (false = true) by discriminate. apply IH. now exists a, b.
Qed.
Lemma path_match_dstar P S : path_match ([42; 42] :: P) S <-> exists a b, S = a ++ b /\ path_match P b.
Proof.
  split.
  - inversion 1; subst; [eauto|congruence].
  - intros (a & b & -> & M). now constructor.
Qed.
Lemma do_match_full P S :
  Forall (fun p => p = [42; 42] \/ tail_only p \/ pure_star p) P ->
  (Forall (fun p => ~ pure_star p) P \/ (Forall (fun p => p <> [42; 42]) P /\ length P <= length S)) ->
  (do_match (map compile_expr P) S false = true <-> path_match P S).
Proof.
  intros F. revert S. induction F as [|p P Hp F IH]; intros S C.
  - simpl. destruct S; split; intros H; try discriminate; auto; [constructor|inversion H].
  - cbn [map]. destruct (list_eq_dec Nat.eq_dec p [42; 42]) as [->|ND].
    + assert (C' : Forall (fun p => ~ pure_star p) P).
      { destruct C as [C|[C _]]; [now inversion C|]. inversion C; subst. congruence. }
      rewrite compile_expr_dstar, do_match_dstar by reflexivity. rewrite path_match_dstar.
      split; intros (a & b & -> & M); exists a, b; split; auto; apply IH; auto.
    + destruct Hp as [Hp|Hp]; [congruence|].
      assert (NE : p <> []).
      { destruct Hp as [(k & lit & -> & N & _)|(k & -> & _)]; [|discriminate]. intros E. apply app_eq_nil in E as [_ E]. auto. }
      rewrite compile_expr_other by auto. cbn [do_match double_star elements]. destruct S as [|s S].
      * split; [|inversion 1; congruence]. intros M. exfalso. destruct Hp as [Hp|Hp].
        -- rewrite tail_only_empty in M by auto. discriminate.
        -- destruct C as [C|[_ L]]; [inversion C; auto|simpl in L; lia].
      * assert (C' : Forall (fun p => ~ pure_star p) P \/ Forall (fun p => p <> [42; 42]) P /\ length P <= length S).
        { destruct C as [C|[C L]]; [left; now inversion C|right]. split; [now inversion C|simpl in L; lia]. }
        assert (Q : match_runes (compile_loop p [] false) false s = true <-> seg_match p s).
        { destruct Hp as [Hp|Hp]; [now apply tail_only_full|]. destruct (pure_star_full p s Hp). tauto. }
        destruct (match_runes (compile_loop p [] false) false s); cbn [negb].
        -- rewrite IH by auto. split; [|inversion 1; auto; congruence]. intros M. constructor; auto. now apply Q.
        -- split; [discriminate|]. inversion 1; subst; [congruence|]. now apply Q.
Qed.

(** Exact matching, for patterns in which a star never follows a literal within an element,
    and whose `*`-only elements cannot meet the end of the path: either there are none, or
    the pattern has no `**` and the path has at least as many elements as the pattern. *)
Theorem C33_exact_partial :
  forall pattern path P S, elems pattern P -> elems path S ->
  Forall (fun p => p = [42; 42] \/ tail_only p \/ pure_star p) P ->
  (Forall (fun p => ~ pure_star p) P \/ (Forall (fun p => p <> [42; 42]) P /\ length P <= length S)) ->
  (matches pattern path = true <-> glob pattern path).
Proof.
  intros pattern path P S EP ES F C. unfold matches, compile_pattern. rewrite (elems_split _ _ EP), (elems_split _ _ ES), do_match_full by auto.
  unfold glob. split; [eauto|]. intros (P' & S' & EP' & ES' & M). apply elems_split in EP, ES, EP', ES'. congruence.
Qed.
Print Assumptions C33_exact_partial.

(** ** Prefix mode never misses a match *)
Lemma compile_prefix p s : seg_match p s -> forall cur,
  match_runes (compile_loop p cur false) true (rev cur ++ s) = true /\
  (cur = [] -> exists a b, s = a ++ b /\ match_runes (compile_loop p cur true) true b = true).
Proof.
  induction 1 as [|c p s N M IH|p run s M IH]; intros cur; simpl.
  - destruct cur as [|x cur]; simpl.
    + split; auto. intros _. now exists [], [].
    + split; [|discriminate]. apply (proj2 (match_plain_prefix _ [] _)). now exists [].
  - destruct (Nat.eqb_spec c star) as [E|E]; [now unfold star in E|]. simpl. destruct (IH (c :: cur)) as [IH1 _]. simpl in IH1.
    rewrite <- app_assoc in IH1. simpl in IH1. split; auto. intros ->. exists [], (c :: s). split; auto.
  - destruct (IH []) as [_ IH2]. destruct (IH2 eq_refl) as (a & b & -> & Mb). destruct cur as [|x cur].
    + split.
      * apply match_star. exists (run ++ a), b. split; [|exact Mb]. now rewrite <- ?app_assoc.
      * intros _. exists (run ++ a), b. split; [|exact Mb]. now rewrite <- ?app_assoc.
    + split; [|discriminate]. apply (proj2 (match_plain_prefix _ _ _)). now exists (run ++ a ++ b).
Qed.
Lemma do_match_prefix P S1 S2 : Forall (fun s => s <> []) P -> path_match P S1 -> do_match (map compile_expr P) (S1 ++ S2) true = true.
Proof.
  intros F M. revert F. induction M as [|P run S M IH|p P s S N Ms M IH]; intros F; cbn [map]; [now destruct S2| |]; inversion F; subst.
  - rewrite compile_expr_dstar. apply do_match_dstar; auto. exists run, (S ++ S2). rewrite app_assoc. auto.
  - rewrite compile_expr_other by auto. cbn [do_match double_star elements app]. destruct (compile_prefix _ _ Ms []) as [Q _]. simpl in Q.
    rewrite Q. simpl. auto.
Qed.
(** Every path whose leading elements the pattern matches, matches in prefix mode; for all
    patterns and paths. *)
Theorem C33_prefix_complete :
  forall pattern path, glob_prefix pattern path -> matches_prefix pattern path = true.
Proof.
  intros pattern path (P & S1 & S2 & EP & ES & M). unfold matches_prefix, compile_pattern.
  rewrite (elems_split _ _ EP), (elems_split _ _ ES). apply do_match_prefix; auto. now apply elems_nonempty in EP.
Qed.
Print Assumptions C33_prefix_complete.

(** A list of patterns matches when one of them does. *)
Theorem C33_any :
  forall patterns path,
  (matches_any patterns path = true <-> exists p, In p patterns /\ matches p path = true) /\
  (matches_any_prefix patterns path = true <-> exists p, In p patterns /\ matches_prefix p path = true).
Proof. intros. split; apply existsb_exists. Qed.
Print Assumptions C33_any.

(** ** Refutations *)
(** a = 97, b = 98, c = 99, x = 120. *)
Lemma not_glob pattern path P S : elems pattern P -> elems path S -> ~ path_match P S -> ~ glob pattern path.
Proof. intros EP ES N (P' & S' & EP' & ES' & M). apply elems_split in EP, ES, EP', ES'. apply N. congruence. Qed.
(** "a*" does not match "ab", although it should; "a*b" matches "a", although it should not;
    "a/*/b" and "a/*" match "a", although they should not. *)
Theorem C33_exact_refuted :
  (glob [97; 42] [97; 98] /\ matches [97; 42] [97; 98] = false) /\
  (~ glob [97; 42; 98] [97] /\ matches [97; 42; 98] [97] = true) /\
  (~ glob [97; 47; 42; 47; 98] [97] /\ matches [97; 47; 42; 47; 98] [97] = true) /\
  (~ glob [97; 47; 42] [97] /\ matches [97; 47; 42] [97] = true).
Proof.
  pose proof (split_elems [97; 42]) as E1. vm_compute in E1. pose proof (split_elems [97; 98]) as E2. vm_compute in E2.
  pose proof (split_elems [97; 42; 98]) as E3. vm_compute in E3. pose proof (split_elems [97]) as E4. vm_compute in E4.
  pose proof (split_elems [97; 47; 42; 47; 98]) as E5. vm_compute in E5. pose proof (split_elems [97; 47; 42]) as E6. vm_compute in E6.
  repeat split; try reflexivity.
  - exists [[97; 42]], [[97; 98]]. split; [exact E1|]. split; [exact E2|]. apply pm_seg; [discriminate| |constructor].
    apply sm_char; [discriminate|]. apply (sm_star [] [98] []). constructor.
  - apply (not_glob _ _ _ _ E3 E4). intros M. inversion M; subst. clear M.
    assert (G : seg_match [97; 42; 98] [97]) by assumption. inversion G as [|c p s N G2|p run s G2]; subst.
    inversion G2 as [|c p s N2 G3|p run s G3 X1 E0]; subst. inversion G3; subst. now apply app_eq_nil in E0 as [_ E0].
  - apply (not_glob _ _ _ _ E5 E4). intros M. inversion M; subst. match goal with H : path_match _ [] |- _ => inversion H; subst end.
  - apply (not_glob _ _ _ _ E6 E4). intros M. inversion M; subst. match goal with H : path_match _ [] |- _ => inversion H; subst end.
Qed.
Print Assumptions C33_exact_refuted.
(** Prefix mode also accepts a path whose elements merely begin with the pattern's. *)
Theorem C33_prefix_refuted :
  exists pattern path, ~ glob_prefix pattern path /\ matches_prefix pattern path = true.
Proof.
  exists [97; 47; 98], [97; 120; 47; 98; 120]. split; [|reflexivity]. intros (P & S1 & S2 & EP & ES & M).
  apply elems_split in EP, ES. vm_compute in EP, ES. subst P. inversion M as [| |p P s S N G M' E1 E2]; subst.
  inversion G as [|c p s' N2 G3|]; subst. inversion G3; subst. discriminate.
Qed.
Print Assumptions C33_prefix_refuted.

(** "**/*b/c" against "/x//ab/c/" meets the hypotheses of [C33_exact_partial]. *)
Example C33_exact_example :
  let pattern := [42; 42; 47; 42; 98; 47; 99] in let path := [47; 120; 47; 47; 97; 98; 47; 99; 47] in
  elems pattern [[42; 42]; [42; 98]; [99]] /\ elems path [[120]; [97; 98]; [99]] /\
  Forall (fun p => p = [42; 42] \/ tail_only p \/ pure_star p) [[42; 42]; [42; 98]; [99]] /\
  matches pattern path = true /\ matches pattern [120; 47; 98; 99] = false.
Proof.
  split; [exact (split_elems [42; 42; 47; 42; 98; 47; 99])|]. split; [exact (split_elems [47; 120; 47; 47; 97; 98; 47; 99; 47])|].
  split; [|split; reflexivity]. constructor; [now left|]. constructor; [right; left|constructor; [right; left|constructor]].
  - exists 1, [98]. simpl. intuition congruence.
  - exists 0, [99]. simpl. intuition congruence.
Qed.
