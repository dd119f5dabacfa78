(** * C21: function names parse back into their parts.  Model: M_FuncName. *)
From Coq Require Import Ascii String List Arith Bool Lia.
From Verif Require Import M_Str M_FuncName.
Import ListNotations.
Open Scope char_scope.

(** ** Specification: how the Go runtime writes a function's full name. *)
Inductive receiver :=
| NoRecv (fgen : option bytes)                      (* pkg.F, pkg.F[args] *)
| ValRecv (T : bytes) (tgen : option bytes)         (* pkg.T.M, pkg.T[args].M *)
| PtrRecv (T : bytes) (tgen : option bytes).        (* pkg.( *T).M, pkg.( *T[args]).M *)
Definition brackets (g : option bytes) : bytes := match g with Some a => "[" :: a ++ ["]"] | None => [] end.
Definition compose (pkg : bytes) (r : receiver) (name : bytes) : bytes :=
  match r with
  | NoRecv g => pkg ++ "." :: name ++ brackets g
  | ValRecv T g => pkg ++ "." :: T ++ brackets g ++ "." :: name
  | PtrRecv T g => pkg ++ "." :: "(" :: "*" :: T ++ brackets g ++ ")" :: "." :: name
  end.
Definition args (g : option bytes) : bytes := match g with Some a => a | None => [] end.
Definition parts (pkg : bytes) (r : receiver) (name : bytes) : parsed :=
  match r with
  | NoRecv g => Parsed pkg [] false [] (args g) name
  | ValRecv T g => Parsed pkg T false (args g) [] name
  | PtrRecv T g => Parsed pkg T true (args g) [] name
  end.

(** An identifier: not empty, none of the punctuation of full names. *)
Definition ident (s : bytes) : Prop := s <> [] /\ Forall (fun c => ~ In c ["."; "/"; "["; "]"; "("; ")"; "*"]) s.
(** A package path: no brackets or parentheses; its last element has no dot (the
    Go linker writes such dots as %2e). *)
Definition pkg_ok (s : bytes) : Prop :=
  Forall (fun c => ~ In c ["["; "]"; "("; ")"]) s /\
  forall a b, cut_last "." s = Some (a, b) -> In "/" b.
(** Type arguments without nested brackets or function types. *)
Definition args_ok (g : option bytes) : Prop :=
  match g with None => True | Some a => Forall (fun c => ~ In c ["["; "("]) a end.
Definition recv_ok (r : receiver) : Prop :=
  match r with
  | NoRecv g => args_ok g
  | ValRecv T g | PtrRecv T g => ident T /\ args_ok g
  end.

(** ** Proof *)
Lemma drop_last_snoc s c : drop_last (s ++ [c]) = s.
Proof.
  unfold drop_last. rewrite app_length. simpl. replace (length s + 1 - 1) with (length s) by lia.
  rewrite firstn_app, Nat.sub_diag, firstn_all. simpl. apply app_nil_r.
Qed.
Lemma forall_not_in (c : ascii) P s : Forall (fun x => ~ In x P) s -> In c P -> ~ In c s.
Proof. intros F I J. rewrite Forall_forall in F. now apply (F c J). Qed.

Lemma ident_last s x : ident s -> In x ["."; "/"; "["; "]"; "("; ")"; "*"] -> has_suffix s [x] = false.
Proof.
  intros [N F] I. destruct s as [|y s] using rev_ind; [congruence|]. rewrite has_suffix_last.
  destruct (eqc y x) eqn:E; auto. apply eqc_eq in E. subst. rewrite Forall_forall in F. exfalso. apply (F x); auto.
  apply in_or_app. right. now left.
Qed.
Lemma has_suffix_app_nonempty a b x : b <> [] -> has_suffix (a ++ b) [x] = has_suffix b [x].
Proof.
  intros N. destruct b as [|y b] using rev_ind; [congruence|]. rewrite app_assoc, !has_suffix_last. reflexivity.
Qed.

Lemma star_skip (tgen fgen fname pkg r : bytes) : ident r ->
  match r with
  | "*" :: r' => Some (Parsed pkg r' true tgen fgen fname)
  | _ => Some (Parsed pkg r false tgen fgen fname)
  end = Some (Parsed pkg r false tgen fgen fname).
Proof.
  intros [N F]. destruct r as [|y r]; [congruence|]. inversion F; subst.
  destruct (ascii_dec y "*") as [->|D]; [exfalso; apply H1; simpl; tauto|].
  destruct y as [[|] [|] [|] [|] [|] [|] [|] [|]]; try reflexivity. congruence.
Qed.

Lemma pkg_cut pkg : pkg_ok pkg -> cut_last "." pkg = None \/
  exists a b n, cut_last "." pkg = Some (a, b) /\ last_index "/" pkg = Some n /\ length a < n.
Proof.
  intros [_ P]. destruct (cut_last "." pkg) as [[a b]|] eqn:E; auto. right. exists a, b.
  specialize (P a b eq_refl). apply cut_last_sound in E as [-> _].
  apply in_split in P as (u & v & ->).
  assert (X : exists u' v', u ++ "/" :: v = u' ++ "/" :: v' /\ ~ In "/" v').
  { destruct (cut_last "/" (u ++ "/" :: v)) as [[u' v']|] eqn:C.
    - apply cut_last_sound in C. eauto.
    - apply cut_last_none_inv in C. exfalso. apply C, in_or_app. right. now left. }
  destruct X as (u' & v' & -> & N). exists (length (a ++ "." :: u')). split; auto.
  unfold last_index. change (a ++ "." :: u' ++ "/" :: v') with (a ++ ("." :: u') ++ "/" :: v').
  rewrite app_assoc, cut_last_some by auto. split; auto. rewrite app_length. simpl. lia.
Qed.

Lemma last_index_ge c a b n : last_index c a = Some n -> exists m, last_index c (a ++ b) = Some m /\ n <= m.
Proof.
  unfold last_index. destruct (cut_last c a) as [[u v]|] eqn:E; [|discriminate]. intros H. injection H as <-. simpl.
  apply cut_last_sound in E as [-> N].
  destruct (cut_last c ((u ++ c :: v) ++ b)) as [[u' v']|] eqn:E2.
  - exists (length u'). split; auto. apply cut_last_sound in E2 as [E2 N'].
    destruct (Nat.le_gt_cases (length u) (length u')) as [L|L]; auto. exfalso. apply N'.
    rewrite <- app_assoc in E2. assert (X : exists z, u = u' ++ z /\ z <> []).
    { clear -E2 L. revert u E2 L. induction u' as [|x u' IH]; intros [|y u] E2 L; simpl in *; try lia.
      - now exists (y :: u).
      - injection E2 as <- E2. destruct (IH u E2) as (z & -> & Z); [lia|]. now exists z. }
    destruct X as (z & -> & Z). rewrite <- app_assoc in E2. apply app_inv_head in E2.
    destruct z as [|x z]; [congruence|]. injection E2 as _ E2. rewrite <- E2. apply in_or_app. right. now left.
  - apply cut_last_none_inv in E2. exfalso. apply E2, in_or_app. left. apply in_or_app. right. now left.
Qed.

Theorem C21_parse_partial :
  forall pkg r name, pkg_ok pkg -> pkg <> [] -> ident name -> recv_ok r ->
    parse_func_name (compose pkg r name) = Some (parts pkg r name).
Proof.
  intros pkg r name Hp Np Hn Hr.
  assert (NN : name <> []) by apply Hn.
  assert (Nd : ~ In "." name) by (eapply forall_not_in; [apply Hn|]; simpl; tauto).
  destruct r as [g|T g|T g].
  - (* function *)
    unfold parse_func_name. set (sep := last_index "/" (compose pkg (NoRecv g) name)).
    assert (A : cut_generic ((compose pkg (NoRecv g) name)) = Some (args g, pkg ++ "." :: name)).
    { unfold cut_generic; simpl. destruct g as [a|]; simpl.
      - replace (pkg ++ "." :: name ++ "[" :: a ++ ["]"]) with ((pkg ++ "." :: name) ++ "[" :: (a ++ ["]"])) by (rewrite <- app_assoc; reflexivity).
        assert (X : ~ In "[" (a ++ ["]"])).
        { intros I. apply in_app_or in I as [I|I].
          - revert I. eapply forall_not_in; [apply Hr|]. simpl; tauto.
          - destruct I as [I|[]]. discriminate. }
        rewrite (cut_last_some "[" (pkg ++ "." :: name) (a ++ ["]"]) X), drop_last_snoc.
        change ("[" :: a ++ ["]"]) with (("[" :: a) ++ ["]"]). rewrite app_assoc, has_suffix_last. reflexivity.
      - rewrite app_nil_r. rewrite (has_suffix_app_nonempty pkg ("." :: name)) by discriminate.
        change ("." :: name) with (["."] ++ name). rewrite has_suffix_app_nonempty by auto.
        rewrite ident_last by (auto; simpl; tauto). reflexivity. }
    rewrite A. rewrite cut_last_some by auto.
    assert (B : has_suffix pkg [")"] = false /\ has_suffix pkg ["]"] = false).
    { destruct pkg as [|y p] using rev_ind; [congruence|]. rewrite !has_suffix_last. destruct Hp as [F _].
      rewrite Forall_forall in F. specialize (F y). assert (I : In y (p ++ [y])) by (apply in_or_app; right; now left).
      specialize (F I). simpl in F. split; apply eqc_neq; intros ->; tauto. }
    destruct B as [B1 B2]. rewrite B1. unfold cut_generic. rewrite B2. simpl.
    destruct (pkg_cut pkg Hp) as [E|(a & b & n & E & L & Lt)]; rewrite E.
    + reflexivity.
    + destruct (last_index_ge "/" pkg ("." :: name ++ brackets g) n L) as (m & Lm & Le).
      fold sep. change (pkg ++ "." :: name ++ brackets g) with (compose pkg (NoRecv g) name) in Lm.
      fold sep in Lm. rewrite Lm. simpl. rewrite andb_false_r. simpl.
      replace (Nat.ltb (length a) m) with true by (symmetry; apply Nat.ltb_lt; lia). reflexivity.
  - (* value receiver *)
    destruct Hr as [HT Hg].
    assert (NT : T <> []) by apply HT.
    assert (Td : ~ In "." T) by (eapply forall_not_in; [apply HT|]; simpl; tauto).
    assert (Tsl : ~ In "/" T) by (eapply forall_not_in; [apply HT|]; simpl; tauto).
    assert (Nsl : ~ In "/" name) by (eapply forall_not_in; [apply Hn|]; simpl; tauto).
    unfold parse_func_name. set (sep := last_index "/" (compose pkg (ValRecv T g) name)).
    assert (C : compose pkg (ValRecv T g) name = (pkg ++ "." :: T ++ brackets g) ++ "." :: name)
      by (simpl; rewrite <- app_assoc; simpl; now rewrite <- app_assoc).
    assert (Sx : has_suffix (compose pkg (ValRecv T g) name) ["]"] = false).
    { rewrite C. rewrite (has_suffix_app_nonempty _ ("." :: name)) by discriminate.
      change ("." :: name) with (["."] ++ name). rewrite has_suffix_app_nonempty by auto.
      rewrite ident_last by (auto; simpl; tauto). reflexivity. }
    unfold cut_generic at 1. rewrite Sx. rewrite C at 1. rewrite cut_last_some by auto.
    assert (P1 : has_suffix (pkg ++ "." :: T ++ brackets g) [")"] = false).
    { destruct g as [a|]; simpl.
      - replace (pkg ++ "." :: T ++ "[" :: a ++ ["]"]) with ((pkg ++ "." :: T ++ "[" :: a) ++ ["]"])
          by (rewrite <- app_assoc; simpl; rewrite <- app_assoc; reflexivity).
        rewrite has_suffix_last. reflexivity.
      - rewrite app_nil_r. rewrite (has_suffix_app_nonempty pkg ("." :: T)) by discriminate.
        change ("." :: T) with (["."] ++ T). rewrite has_suffix_app_nonempty by auto.
        rewrite ident_last by (auto; simpl; tauto). reflexivity. }
    rewrite P1.
    assert (G : cut_generic ((pkg ++ "." :: T ++ brackets g)) = Some (args g, pkg ++ "." :: T)).
    { unfold cut_generic. destruct g as [a|]; simpl.
      - replace (pkg ++ "." :: T ++ "[" :: a ++ ["]"]) with ((pkg ++ "." :: T) ++ "[" :: (a ++ ["]"])) by (rewrite <- app_assoc; reflexivity).
        assert (X : ~ In "[" (a ++ ["]"])).
        { intros I. apply in_app_or in I as [I|I].
          - revert I. eapply forall_not_in; [apply Hg|]. simpl; tauto.
          - destruct I as [I|[]]. discriminate. }
        rewrite (cut_last_some "[" (pkg ++ "." :: T) (a ++ ["]"]) X), drop_last_snoc.
        change ("[" :: a ++ ["]"]) with (("[" :: a) ++ ["]"]). rewrite app_assoc, has_suffix_last. reflexivity.
      - rewrite app_nil_r. rewrite (has_suffix_app_nonempty pkg ("." :: T)) by discriminate.
        change ("." :: T) with (["."] ++ T). rewrite has_suffix_app_nonempty by auto.
        rewrite ident_last by (auto; simpl; tauto). reflexivity. }
    rewrite G. rewrite cut_last_some by auto.
    (* the separator test says "receiver" *)
    assert (SP : forall s, s = pkg ++ "." :: T -> idx_lt (length pkg) (last_index "/" s) = false).
    { intros s ->. unfold last_index. destruct (cut_last "/" (pkg ++ "." :: T)) as [[u v]|] eqn:E; auto.
      simpl. apply cut_last_sound in E as [E N]. apply Nat.ltb_ge.
      destruct (Nat.le_gt_cases (length u) (length pkg)); auto. exfalso.
      assert (X : exists z, u = pkg ++ z /\ z <> []).
      { clear -E H. revert u E H. induction pkg as [|x p IH]; intros [|y u] E H; simpl in *; try lia.
        - now exists (y :: u).
        - injection E as <- E. destruct (IH u E) as (z & -> & Z); [lia|]. now exists z. }
      destruct X as (z & -> & Z). rewrite <- app_assoc in E. apply app_inv_head in E.
      destruct z as [|x z]; [congruence|]. injection E as _ E. apply Tsl. rewrite E. apply in_or_app. right. now left. }
    assert (SF : idx_lt (length pkg) (if idx_lt (length pkg) sep && containsc "/" (args g) then last_index "/" (pkg ++ "." :: T) else sep) = false).
    { destruct (containsc "/" (args g)) eqn:Cs.
      - rewrite andb_true_r. destruct (idx_lt (length pkg) sep) eqn:Q; auto.
      - rewrite andb_false_r. unfold sep, last_index.
        destruct (cut_last "/" (compose pkg (ValRecv T g) name)) as [[u v]|] eqn:E; auto.
        simpl. apply cut_last_sound in E as [E N]. apply Nat.ltb_ge.
        destruct (Nat.le_gt_cases (length u) (length pkg)); auto. exfalso.
        assert (X : exists z, u = pkg ++ z /\ z <> []).
        { simpl in E. clear -E H. revert u E H. induction pkg as [|x p IH]; intros [|y u] E H; simpl in *; try lia.
          - now exists (y :: u).
          - injection E as <- E. destruct (IH u E) as (z & -> & Z); [lia|]. now exists z. }
        destruct X as (z & -> & Z). simpl in E. rewrite <- app_assoc in E. apply app_inv_head in E.
        destruct z as [|x z]; [congruence|]. injection E as _ E.
        assert (I : In "/" (T ++ brackets g ++ "." :: name)) by (rewrite E; apply in_or_app; right; now left).
        apply in_app_or in I as [I|I]; [tauto|]. apply in_app_or in I as [I|I].
        + destruct g as [a|]; [|destruct I]. simpl in I, Cs. destruct I as [I|I]; [discriminate|].
          apply in_app_or in I as [I|[I|[]]]; [|discriminate]. apply containsc_in in I. congruence.
        + destruct I as [I|I]; [discriminate|tauto]. }
    rewrite SF. apply star_skip. exact HT.
  - (* pointer receiver *)
    destruct Hr as [HT Hg].
    assert (NT : T <> []) by apply HT.
    unfold parse_func_name. set (sep := last_index "/" (compose pkg (PtrRecv T g) name)). clearbody sep.
    assert (C : compose pkg (PtrRecv T g) name = (pkg ++ "." :: "(" :: "*" :: T ++ brackets g ++ [")"]) ++ "." :: name).
    { simpl. rewrite <- app_assoc. simpl. rewrite <- !app_assoc. reflexivity. }
    assert (Sx : has_suffix (compose pkg (PtrRecv T g) name) ["]"] = false).
    { rewrite C. rewrite (has_suffix_app_nonempty _ ("." :: name)) by discriminate.
      change ("." :: name) with (["."] ++ name). rewrite has_suffix_app_nonempty by auto.
      rewrite ident_last by (auto; simpl; tauto). reflexivity. }
    unfold cut_generic at 1. rewrite Sx. rewrite C. rewrite cut_last_some by auto.
    assert (C2 : pkg ++ "." :: "(" :: "*" :: T ++ brackets g ++ [")"] = (pkg ++ ["."]) ++ "(" :: ("*" :: T ++ brackets g) ++ [")"])
      by (rewrite <- app_assoc; simpl; rewrite <- app_assoc; reflexivity).
    assert (P1 : has_suffix (pkg ++ "." :: "(" :: "*" :: T ++ brackets g ++ [")"]) [")"] = true).
    { rewrite C2. change ("(" :: ("*" :: T ++ brackets g) ++ [")"]) with (("(" :: "*" :: T ++ brackets g) ++ [")"]).
      rewrite app_assoc, has_suffix_last. reflexivity. }
    rewrite P1, C2.
    assert (X : ~ In "(" (("*" :: T ++ brackets g) ++ [")"])).
    { intros I. apply in_app_or in I as [I|[I|[]]]; [|discriminate]. destruct I as [I|I]; [discriminate|].
      apply in_app_or in I as [I|I].
      - revert I. eapply forall_not_in; [apply HT|]. simpl; tauto.
      - destruct g as [a|]; [|destruct I]. simpl in I. destruct I as [I|I]; [discriminate|].
        apply in_app_or in I as [I|[I|[]]]; [|discriminate]. revert I. eapply forall_not_in; [apply Hg|]. simpl; tauto. }
    rewrite (cut_last_some "(" (pkg ++ ["."]) _ X).
    assert (Z : match pkg ++ ["."] with
                | [] => None
                | _ :: _ => if has_suffix (pkg ++ ["."]) ["."] then Some (inr (true, drop_last (("*" :: T ++ brackets g) ++ [")"]), drop_last (pkg ++ ["."]))) else Some (inl tt)
                end = Some (@inr unit _ (true, "*" :: T ++ brackets g, pkg))).
    { rewrite has_suffix_last, !drop_last_snoc. simpl. destruct (pkg ++ ["."]) eqn:E; auto. destruct pkg; discriminate. }
    rewrite Z.
    assert (G : cut_generic (("*" :: T ++ brackets g)) = Some (args g, "*" :: T)).
    { unfold cut_generic. destruct g as [a|]; simpl brackets; simpl args.
      - change ("*" :: T ++ "[" :: a ++ ["]"]) with (("*" :: T) ++ "[" :: (a ++ ["]"])).
        assert (Y : ~ In "[" (a ++ ["]"])).
        { intros I. apply in_app_or in I as [I|I].
          - revert I. eapply forall_not_in; [apply Hg|]. simpl; tauto.
          - destruct I as [I|[]]. discriminate. }
        rewrite (cut_last_some "[" ("*" :: T) (a ++ ["]"]) Y), drop_last_snoc.
        change ("[" :: a ++ ["]"]) with (("[" :: a) ++ ["]"]). rewrite app_assoc, has_suffix_last. reflexivity.
      - rewrite app_nil_r. change ("*" :: T) with (["*"] ++ T). rewrite has_suffix_app_nonempty by auto.
        rewrite ident_last by (auto; simpl; tauto). reflexivity. }
    rewrite G. reflexivity.
Qed.
Print Assumptions C21_parse_partial.

(** Non-trivial instances of the hypotheses, with dots and slashes in the path and
    in the type arguments. *)
Example C21_example :
  parse_func_name #"github.com/a/b.Map[github.com/c/d.K,go.shape.int].Get"
    = Some (Parsed #"github.com/a/b" #"Map" false #"github.com/c/d.K,go.shape.int" [] #"Get") /\
  parse_func_name #"github.com/a/b.(*Map[...]).Get" = Some (Parsed #"github.com/a/b" #"Map" true #"..." [] #"Get") /\
  parse_func_name #"gopkg.in/b.F[...]" = Some (Parsed #"gopkg.in/b" [] false [] #"..." #"F").
Proof. repeat split; vm_compute; reflexivity. Qed.
Example C21_example_hypotheses :
  pkg_ok #"github.com/a/b" /\ ident #"Get" /\ recv_ok (ValRecv #"Map" (Some #"github.com/c/d.K,go.shape.int")).
Proof.
  split; [|split].
  - split; [|vm_compute; intros a b H; injection H as <- <-; tauto].
    repeat constructor; vm_compute; intuition discriminate.
  - split; [discriminate|]. repeat constructor; vm_compute; intuition discriminate.
  - split; [split; [discriminate|]|]; repeat constructor; vm_compute; intuition discriminate.
Qed.

(** Nested type arguments are cut at the innermost bracket (func.go:111,152). *)
Theorem C21_nested_type_args_refuted :
  exists pkg name a p, pkg_ok pkg /\ pkg <> [] /\ ident name /\
    parse_func_name (compose pkg (NoRecv (Some a)) name) = Some p /\ func_name p <> name.
Proof.
  exists #"main", #"F", #"map[string]int". eexists.
  split; [split; [repeat constructor; vm_compute; intuition discriminate|vm_compute; discriminate]|].
  split; [discriminate|]. split; [split; [discriminate|]; repeat constructor; vm_compute; intuition discriminate|].
  split; [vm_compute; reflexivity|]. vm_compute. discriminate.
Qed.
Print Assumptions C21_nested_type_args_refuted.

(** A name without package: no dot in it.  Only the function name (and type
    arguments) are set. *)
Theorem C21_bare_name :
  forall name g, ident name -> args_ok g ->
    parse_func_name (name ++ brackets g) = Some (Parsed [] [] false [] (args g) name).
Proof.
  intros name g Hn Hg. unfold parse_func_name, cut_generic.
  assert (Nd : cut_last "." name = None) by (apply cut_last_none; eapply forall_not_in; [apply Hn|]; simpl; tauto).
  destruct g as [a|]; simpl brackets; simpl args.
  - change (name ++ "[" :: a ++ ["]"]) with (name ++ ("[" :: a) ++ ["]"]). rewrite app_assoc, has_suffix_last, eqc_refl.
    rewrite <- app_assoc. change (("[" :: a) ++ ["]"]) with ("[" :: (a ++ ["]"])). rewrite cut_last_some.
    + rewrite drop_last_snoc, Nd. reflexivity.
    + intros I. apply in_app_or in I as [I|[I|[]]]; [|discriminate]. revert I. eapply forall_not_in; [exact Hg|]. simpl. tauto.
  - rewrite app_nil_r, ident_last by (auto; simpl; tauto). now rewrite Nd.
Qed.
Print Assumptions C21_bare_name.

(** A function type as type argument of a pointer receiver hides the receiver
    (func.go:135). *)
Theorem C21_func_type_args_refuted :
  exists pkg T a name p, ident T /\ ident name /\
    parse_func_name (compose pkg (PtrRecv T (Some a)) name) = Some p /\ recv_name p <> T.
Proof.
  exists #"main", #"T", #"func(int)", #"M". eexists.
  split; [split; [discriminate|]; repeat constructor; vm_compute; intuition discriminate|].
  split; [split; [discriminate|]; repeat constructor; vm_compute; intuition discriminate|].
  split; [vm_compute; reflexivity|]. vm_compute. discriminate.
Qed.
Print Assumptions C21_func_type_args_refuted.

(** A package path whose last element has an unescaped dot (registered variables
    have such full names, functab.go:266) is read as package plus receiver. *)
Theorem C21_dotted_package_refuted :
  exists pkg name p, ident name /\ Forall (fun c => ~ In c ["["; "]"; "("; ")"]) pkg /\
    parse_func_name (compose pkg (NoRecv None) name) = Some p /\ pkg_path p <> pkg.
Proof.
  exists #"gopkg.in/yaml.v3", #"F". eexists.
  split; [split; [discriminate|]; repeat constructor; vm_compute; intuition discriminate|].
  split; [repeat constructor; vm_compute; intuition discriminate|].
  split; [vm_compute; reflexivity|]. vm_compute. discriminate.
Qed.
Print Assumptions C21_dotted_package_refuted.
