(** * The trace viewer: reading a file (C95), the old format (C96) *)
From Coq Require Import Ascii String List Arith Bool Lia ZArith.
From Verif Require Import M_Str P_Str M_TraceView.
Import ListNotations.
Open Scope nat_scope.
Open Scope list_scope.

(** ** C95. Specification: every value of the file is a stack of the page, in order; one that is no stack is
    shown as its error. *)
Definition stands_for (now : bytes) (i : item) (s : stack) : Prop :=
  match i with
  | Fits v => s = v
  | Misfit m => s = {| s_format := []; s_begin := now;
                       s_children := [Some (Entry 0 None 0 0 [] [] false 0 (#"parse stack: " ++ m) [])] |}
  end.

Lemma loop_eof now items l r :
  loop now l (items, AtEOF) r <-> exists t, Forall2 (stands_for now) items t /\ r = l ++ t.
Proof.
  revert l; induction items as [|i items IH]; intros l.
  - split.
    + intros H. inversion H; subst; unfold turn, decode in *; cbn in *; [|discriminate].
      exists []. split; [constructor|]. injection H0 as ->. now rewrite app_nil_r.
    + intros (t & F & ->). inversion F; subst. rewrite app_nil_r. now constructor.
  - split.
    + intros H. inversion H; subst; unfold turn, decode in *; destruct i; cbn in *; try discriminate;
        injection H0 as <- <-; apply IH in H1 as (t & F & ->);
        eexists (_ :: t); (split; [constructor; [|exact F]|]); [reflexivity|now rewrite <- app_assoc|reflexivity|now rewrite <- app_assoc].
    + intros (t & F & ->). inversion F as [|? s ? t' A B]; subst.
      destruct i; cbn in A; subst; (eapply LNext; [reflexivity|]; apply IH; exists t'; split; [exact B|now rewrite <- app_assoc]).
Qed.

(** A file that ends well is read to its end, and nothing of it is dropped. *)
Theorem C95_reads_all_partial now force s items r :
  force = true \/ s_format s = #"stack" ->
  (reads now force (Fits s :: items, AtEOF) r <->
   exists t, Forall2 (stands_for now) items t /\ r = ROk (s :: t)).
Proof.
  intros F.
  assert (N : negb force && negb (eqs (s_format s) #"stack") = false).
  { destruct F as [-> | ->]; [reflexivity|]. now rewrite eqs_refl, andb_false_r. }
  split.
  - intros H. inversion H; subst; cbn in H0; try discriminate.
    + injection H0 as <- <-. congruence.
    + injection H0 as <- <-. apply loop_eof in H2 as (t & A & ->). exists t. split; auto.
  - intros (t & A & ->). eapply RStacks; [reflexivity|exact N|]. apply loop_eof. now exists t.
Qed.

Lemma stands_for_ex now items : exists t, Forall2 (stands_for now) items t.
Proof.
  induction items as [|i items (t & F)]; [exists []; constructor|].
  destruct i; eexists (_ :: t); constructor; eauto; reflexivity.
Qed.
(** the reading of such a file does end *)
Theorem C95_ends_partial now force items :
  exists r, reads now force (items, AtEOF) r.
Proof.
  destruct items as [|[s|m] items].
  - exists (ROk []). now eapply REmpty.
  - destruct (negb force && negb (eqs (s_format s) #"stack")) eqn:E.
    + exists ROther. now eapply ROtherFormat.
    + destruct (stands_for_ex now items) as (t & F). exists (ROk (s :: t)). eapply RStacks; [reflexivity|exact E|].
      apply loop_eof. now exists t.
  - exists (RErr m). now eapply RError.
Qed.

(** The first value decides: an empty file is an empty trace, a first value that does not fit or is cut is an
    error, a first value of another format is left to the reader of that format, whatever follows. *)
Theorem C95_first_decides now force items d r :
  (reads now force ([], AtEOF) r <-> r = ROk []) /\
  (forall m, reads now force ([], Broken m) r <-> r = RErr m) /\
  (forall m, reads now force (Misfit m :: items, d) r <-> r = RErr m) /\
  (forall s, s_format s <> #"stack" -> (reads now false (Fits s :: items, d) r <-> r = ROther)).
Proof.
  split; [|split; [|split]].
  - split; [intros H; inversion H; subst; cbn in *; congruence|intros ->; now eapply REmpty].
  - intros m; split; [intros H; inversion H; subst; cbn in *; congruence|intros ->; now eapply RError].
  - intros m; split; [intros H; inversion H; subst; cbn in *; congruence|intros ->; now eapply RError].
  - intros s N.
    assert (E : negb (eqs (s_format s) #"stack") = true).
    { destruct (eqs (s_format s) #"stack") eqn:E; [|reflexivity]. apply eqs_eq in E. contradiction. }
    split.
    + intros H. inversion H; subst; cbn [decode] in H0; try discriminate; [reflexivity|].
      injection H0 as <- <-. cbn in H1. cbn in E. congruence.
    + intros ->. eapply ROtherFormat; [reflexivity|exact E].
Qed.

Lemma running_items now l items d :
  exists n l', running now n l (items, d) l' ([], d) /\ length l <= length l' /\ n = length items.
Proof.
  revert l; induction items as [|i items IH]; intros l.
  - exists 0, l. repeat split; auto. constructor.
  - destruct i as [s|m].
    + destruct (IH (l ++ [s])) as (n & l' & R & L & ->). exists (S (length items)), l'. split; [eapply RTurn; [reflexivity|exact R]|].
      rewrite app_length in L. cbn. split; [lia|reflexivity].
    + destruct (IH (l ++ [error_stack now m])) as (n & l' & R & L & ->). exists (S (length items)), l'.
      split; [eapply RTurn; [reflexivity|exact R]|]. rewrite app_length in L. cbn. split; [lia|reflexivity].
Qed.
Lemma running_trans now n m l f l1 f1 l2 f2 :
  running now n l f l1 f1 -> running now m l1 f1 l2 f2 -> running now (n + m) l f l2 f2.
Proof. intros R; revert m l2 f2; induction R; intros; [auto|]. cbn. eapply RTurn; eauto. Qed.
Lemma running_broken now m k l : running now k l ([], Broken m) (l ++ repeat (error_stack now m) k) ([], Broken m).
Proof.
  revert l; induction k; intros l; [rewrite app_nil_r; constructor|].
  eapply RTurn; [reflexivity|]. cbn [repeat]. specialize (IHk (l ++ [error_stack now m])). now rewrite <- app_assoc in IHk.
Qed.
Lemma loop_broken now items m l r : ~ loop now l (items, Broken m) r.
Proof.
  intros H. remember (items, Broken m) as f eqn:E. revert items E. induction H; intros; subst.
  - unfold turn, decode in H. destruct items as [|[]]; discriminate.
  - unfold turn, decode in H. destruct items as [|[]]; injection H as <- <-; eapply IHloop; reflexivity.
Qed.
(** But a file whose tail is cut after at least one stack is never read: the call does not return, and it
    holds more stacks than any number. *)
Theorem C95_ends_refuted now force s items m :
  force = true \/ s_format s = #"stack" ->
  (~ exists r, reads now force (Fits s :: items, Broken m) r) /\
  forall k, exists n l f, running now n [s] (items, Broken m) l f /\ k <= length l.
Proof.
  intros F. split.
  - intros (r & H). inversion H; subst; cbn in H0; try discriminate.
    + injection H0 as <- <-. destruct F as [F|F]; [subst; discriminate|]. rewrite F, eqs_refl, andb_false_r in H1. discriminate.
    + injection H0 as <- <-. now apply loop_broken in H2.
  - intros k. destruct (running_items now [s] items (Broken m)) as (n & l & R & _ & _).
    exists (n + k), (l ++ repeat (error_stack now m) k), ([], Broken m).
    split; [eapply running_trans; [exact R|apply running_broken]|]. rewrite app_length, repeat_length. lia.
Qed.

(** A trace with one stack and one value that is no stack. *)
Example C95_case :
  reads #"now" false ([Fits {| s_format := #"stack"; s_begin := #"t"; s_children := [] |}; Misfit #"bad"], AtEOF)
        (ROk [{| s_format := #"stack"; s_begin := #"t"; s_children := [] |}; error_stack #"now" #"bad"]).
Proof.
  eapply C95_reads_all_partial; [now right|]. exists [error_stack #"now" #"bad"]. split; [|reflexivity]. constructor; [reflexivity|constructor].
Qed.

(** ** C96. *)
Definition x_fi (x : xentry) := match x with XEntry _ i _ _ _ _ _ _ _ _ => i end.
Definition x_children (x : xentry) := match x with XEntry _ _ _ _ _ _ _ _ _ c => c end.
Section xind.
  Variable P : xentry -> Prop.
  Hypothesis H : forall x, (forall c, In (Some c) (x_children x) -> P c) -> P x.
  Fixpoint xentry_ind' (x : xentry) : P x.
  Proof.
    apply H. destruct x as [a i b d ar re s p er ch]; cbn.
    induction ch as [|o ch IH]; cbn; [tauto|]. destruct o as [y|].
    - pose proof (xentry_ind' y) as Q. intros c [E|Hc]; [injection E as <-; exact Q|now apply IH].
    - intros c [E|Hc]; [discriminate|now apply IH].
  Qed.
End xind.

(** Every entry is there and has the description of its function. *)
Inductive whole : xentry -> Prop :=
| Whole x f : x_fi x = Some f -> (forall o, In o (x_children x) -> exists c, o = Some c /\ whole c) -> whole x.
(** The entry of the page says the same: the name is the full name, everything else is equal, and the
    children are those of the old entry in their order. *)
Inductive says_same : xentry -> entry -> Prop :=
| Same a a' ident f b d ar re sn p er xs es :
    Forall2 (fun x e => exists x' e', x = Some x' /\ e = Some e' /\ says_same x' e') xs es ->
    says_same (XEntry a (Some (ident, f)) b d ar re sn p er xs)
              (Entry a' (Some {| fi_pkg := fi_pkg f; fi_name := ident; fi_file := fi_file f; fi_line := fi_line f; fi_rest := fi_rest f |})
                     b d ar re p 0 er es).

Fixpoint convert_children (l : list (option xentry)) : option (list (option entry)) :=
  match l with
  | [] => Some []
  | None :: _ => None
  | Some c :: r =>
      match convert_entry c with
      | None => None
      | Some c' => match convert_children r with None => None | Some r' => Some (Some c' :: r') end
      end
  end.
Lemma convert_entry_eq a i b d ar re s p er ch :
  convert_entry (XEntry a i b d ar re s p er ch) =
  match convert_func_info i, convert_children ch with
  | Some f, Some l => Some (Entry a (Some f) b d ar re p 0 er l)
  | _, _ => None
  end.
Proof. reflexivity. Qed.

Theorem C96_same x e : convert_entry x = Some e -> says_same x e.
Proof.
  revert e; induction x as [x IH] using xentry_ind'; intros e.
  destruct x as [a i b d ar re s p er ch]. rewrite convert_entry_eq. cbn [x_children] in IH.
  destruct i as [[ident f]|]; cbn; [|discriminate].
  destruct (convert_children ch) as [l|] eqn:C; [|discriminate]. intros [= <-]. constructor.
  revert l C; induction ch as [|o ch IHc]; cbn; intros l C; [injection C as <-; constructor|].
  destruct o as [c|]; [|discriminate]. destruct (convert_entry c) as [c'|] eqn:E; [|discriminate].
  destruct (convert_children ch) as [r'|] eqn:R; [|discriminate]. injection C as <-.
  constructor.
  - exists c, c'. repeat split. apply IH; [now left|exact E].
  - apply IHc; [|reflexivity]. intros c0 I. apply IH. now right.
Qed.
(** The old trace is shown exactly when nothing in it is missing: one entry without the description of its
    function, at any depth, and none of the trace is shown. *)
Theorem C96_shown_iff_whole x : (exists e, convert_entry x = Some e) <-> whole x.
Proof.
  induction x as [x IH] using xentry_ind'. destruct x as [a i b d ar re s p er ch]. cbn [x_children] in IH. split.
  - intros (e & E). rewrite convert_entry_eq in E. destruct i as [[ident f]|]; [|discriminate]. cbn [convert_func_info] in E.
    destruct (convert_children ch) as [l|] eqn:C; [|discriminate]. eapply Whole; [reflexivity|]. cbn [x_children]. clear E.
    revert l C; induction ch as [|o ch IHc]; cbn; intros l C; [tauto|].
    destruct o as [c|]; [|discriminate]. destruct (convert_entry c) as [c'|] eqn:E; [|discriminate].
    destruct (convert_children ch) as [r'|] eqn:R; [|discriminate].
    intros o [<-|Io]; [exists c; split; [reflexivity|apply IH; [now left|eauto]]|].
    eapply IHc; [|reflexivity|exact Io]. intros; apply IH; now right.
  - intros W. inversion W as [? f F K]; subst. cbn in F, K. subst i. destruct f as [ident f].
    assert (C : exists l, convert_children ch = Some l).
    { clear W. revert IH K; induction ch as [|o ch IHc]; intros; [now exists []|]. cbn.
      destruct (K o (or_introl eq_refl)) as (c & -> & Wc). apply IH in Wc as (c' & ->); [|now left].
      destruct IHc as (l & ->); [intros; apply IH; now right|intros; apply K; now right|]. eauto. }
    destruct C as (l & C). rewrite convert_entry_eq, C. cbn. eauto.
Qed.
Definition x1 : xentry :=
  XEntry 1 (Some (#"T.f", root_info #"f")) 1 5 #"{}" #"{}" false true #"e"
    [Some (XEntry 2 (Some (#"g", root_info #"g")) 2 3 [] [] true false [] [])].
Example C96_case : whole x1 /\ exists e, convert_entry x1 = Some e.
Proof. assert (E : exists e, convert_entry x1 = Some e) by (eexists; vm_compute; reflexivity). split; [now apply C96_shown_iff_whole|exact E]. Qed.
