(** * C37: lookup by full name, with the full names spelled out from the registered
    description (no model helper in the statements).  Model: M_Functab. *)
From Coq Require Import Ascii String List Arith Bool Lia.
From Verif Require Import M_Str M_FuncName M_Functab T_FuncName T_Functab.
Import ListNotations.
Open Scope nat_scope.

(** The full name of a registered function: what the runtime calls it or, without a
    function value, for closures, variables and constants, package "." identity.
    Generic functions and interface methods have none. *)
Definition known_as (j : info) (n : bytes) : Prop :=
  i_generic j = false /\ i_interface j = false /\ n <> [] /\
  ((exists pc, i_func j = Some (pc, n)) \/
   (i_func j = None /\ (i_closure j = true \/ i_kind j <> KFunc) /\ i_ident j <> [] /\ n = i_pkg j ++ #"." ++ i_ident j)).

Lemma nonempty_true b : nonempty b = true <-> b <> [].
Proof. destruct b; simpl; split; congruence. Qed.

Lemma snd_pc_full j n : n <> [] -> (snd (pc_full j) = n <-> known_as j n).
Proof.
  intros N. unfold pc_full, known_as. destruct (i_generic j), (i_interface j); cbn [orb snd];
    try (split; [congruence|intros (? & ? & _); discriminate]).
  destruct (i_func j) as [[pc m]|]; cbn [snd].
  - split; [intros ->; eauto 7|]. intros (_ & _ & _ & [[q E]|[E _]]); congruence.
  - assert (K : negb (kind_eqb (i_kind j) KFunc) = true <-> i_kind j <> KFunc) by (destruct (i_kind j); simpl; split; congruence).
    destruct ((i_closure j || negb (kind_eqb (i_kind j) KFunc)) && nonempty (i_ident j)) eqn:C; cbn [snd].
    + apply andb_prop in C as [C I]. apply orb_prop in C. rewrite K in C. rewrite nonempty_true in I.
      split; [intros <-; auto 9|]. intros (_ & _ & _ & [[q E]|(_ & _ & _ & E)]); congruence.
    + split; [congruence|]. intros (_ & _ & _ & [[q E]|(_ & A & B & E)]); [congruence|].
      exfalso. rewrite <- K in A. rewrite <- nonempty_true in B. rewrite B, andb_true_r in C. apply orb_false_elim in C. destruct A, C; congruence.
Qed.

Lemma full_name_spec j : full_name j =
  match i_full j with [] => Some (snd (pc_full j)) | _ => if eqs (i_full j) (snd (pc_full j)) then Some (i_full j) else None end.
Proof. unfold full_name. destruct (pc_full j) as [pc n]. destruct (i_full j); reflexivity. Qed.

(** Registration succeeds exactly when every declared full name is the actual one;
    it panics otherwise. *)
Theorem C37_declared_names_checked :
  forall l, (exists t, register_all empty_table l = Some t) <-> Forall (fun j => i_full j = [] \/ known_as j (i_full j)) l.
Proof.
  intros l. generalize empty_table. induction l as [|j l IH]; intros t0; simpl.
  - split; [constructor|eauto].
  - assert (A : (exists t, register t0 j = Some t) <-> i_full j = [] \/ known_as j (i_full j)).
    { unfold register. rewrite full_name_spec. destruct (i_full j) as [|c f] eqn:F; [split; eauto|].
      destruct (eqs (c :: f) (snd (pc_full j))) eqn:Q.
      - apply eqs_eq in Q. split; [intros _; right; apply snd_pc_full; [discriminate|auto]|eauto].
      - split; [intros [? H]; discriminate|]. intros [H|H]; [discriminate|].
        apply snd_pc_full in H; [|discriminate]. rewrite H in Q. now rewrite (proj2 (eqs_eq _ _) eq_refl) in Q. }
    split.
    + intros [t H]. destruct (register t0 j) as [t1|] eqn:R; [|discriminate]. constructor; [apply A; eauto|]. apply (IH t1). eauto.
    + intros H. inversion H as [|? ? P Q]; subst. apply A in P as [t1 ->]. now apply (IH t1).
Qed.
Print Assumptions C37_declared_names_checked.

Lemma full_key_known l t j n : register_all empty_table l = Some t -> In j l -> (full_key j = Some n <-> known_as j n).
Proof.
  intros H I. assert (D : Forall (fun j => i_full j = [] \/ known_as j (i_full j)) l) by (apply C37_declared_names_checked; eauto).
  rewrite Forall_forall in D. specialize (D j I). unfold full_key. rewrite full_name_spec.
  assert (E : match i_full j with [] => Some (snd (pc_full j)) | _ => if eqs (i_full j) (snd (pc_full j)) then Some (i_full j) else None end = Some (snd (pc_full j))).
  { destruct (i_full j) as [|c f] eqn:F; auto. destruct D as [D|D]; [discriminate|]. apply snd_pc_full in D; [|discriminate].
    rewrite D, (proj2 (eqs_eq _ _) eq_refl). reflexivity. }
  rewrite E. destruct (nonempty (snd (pc_full j))) eqn:N.
  - rewrite nonempty_true in N. split.
    + intros Q. injection Q as <-. now apply snd_pc_full.
    + intros K. f_equal. apply snd_pc_full; [apply K|auto].
  - split; [discriminate|]. intros K. assert (Nn : n <> []) by apply K. apply snd_pc_full in K; [|auto].
    rewrite K in N. apply nonempty_true in Nn. congruence.
Qed.

Lemma is_last_in {A} (p q : A -> Prop) l x : (forall y, In y l -> (p y <-> q y)) -> is_last p l x -> is_last q l x.
Proof.
  intros H (a & b & -> & P & F). exists a, b. split; auto. split; [apply H; auto; apply in_or_app; simpl; auto|].
  rewrite Forall_forall in *. intros y I Q. apply (F y I). apply H; auto. apply in_or_app. simpl. auto.
Qed.

(** A full name finds the last registration known by it. *)
Theorem C37_known_name :
  forall l t full i, register_all empty_table l = Some t ->
    is_last (fun j => known_as j full) l i ->
    get_func_by_full_name t full = Some (Some i).
Proof.
  intros l t full i H L. pose proof (register_all_tabs _ _ H) as T. unfold get_func_by_full_name.
  assert (E : find_key eqs full (t_full t) = Some i).
  { rewrite T. simpl. destruct (find_key_last eqs eqs_eq full_key l (tab full_key l) full eq_refl) as [A _]. apply A.
    eapply is_last_in; [|exact L]. intros y I. symmetry. eapply full_key_known; eauto. }
  now rewrite E.
Qed.
Print Assumptions C37_known_name.

Lemma unknown_none l t n : register_all empty_table l = Some t -> none_such (fun j => known_as j n) l -> find_key eqs n (t_full t) = None.
Proof.
  intros H N. rewrite (register_all_tabs _ _ H). simpl.
  destruct (find_key_last eqs eqs_eq full_key l (tab full_key l) n eq_refl) as [_ B]. apply B.
  apply Forall_forall. intros x I K. rewrite (full_key_known _ _ _ _ H I) in K.
  unfold none_such in N. rewrite Forall_forall in N. now apply (N x I).
Qed.

(** A full name nobody is known by, without type arguments: a function or a method
    with pointer receiver is not found; a method with value receiver finds the last
    registered method of an interface of that name, or nothing. *)
Theorem C37_unknown_name :
  forall l t pkg r name, register_all empty_table l = Some t ->
    pkg_ok pkg -> pkg <> [] -> ident name -> recv_ok r ->
    none_such (fun j => known_as j (compose pkg r name)) l ->
    match r with
    | NoRecv None | PtrRecv _ None => get_func_by_full_name t (compose pkg r name) = Some None
    | ValRecv T None =>
        (forall i, is_last (fun j => i_interface j = true /\ i_pkg j = pkg /\ i_recv j = T) l i ->
                   get_func_by_full_name t (compose pkg r name) = Some (Some i)) /\
        (none_such (fun j => i_interface j = true /\ i_pkg j = pkg /\ i_recv j = T) l ->
                   get_func_by_full_name t (compose pkg r name) = Some None)
    | _ => True
    end.
Proof.
  intros l t pkg r name H Hp Np Hn Hr NX. pose proof (unknown_none _ _ _ H NX) as F.
  unfold get_func_by_full_name. rewrite F, (C21_parse_partial pkg r name Hp Np Hn Hr).
  destruct r as [[g|]|T [g|]|T [g|]]; auto; simpl parts; cbn [type_generic func_generic recv_name func_name pkg_path recv_ptr args]; cbn [nonempty orb andb].
  - assert (NT : T <> []) by apply Hr. rewrite (proj2 (nonempty_true T) NT). cbn [negb andb].
    pose proof (register_all_tabs _ _ H) as ->. simpl.
    destruct (find_key_last eq2 eq2_ok intf_key l (tab intf_key l) (pkg, T) eq_refl) as [A B].
    assert (K : forall j, intf_key j = Some (pkg, T) <-> i_interface j = true /\ i_pkg j = pkg /\ i_recv j = T).
    { intros j. unfold intf_key. destruct (i_interface j); cbn [andb]; [|split; [discriminate|intros (? & _); discriminate]].
      destruct (nonempty (i_recv j)) eqn:N.
      - split; [intros E; injection E as <- <-; auto|]. intros (_ & <- & <-). reflexivity.
      - split; [discriminate|]. intros (_ & _ & <-). apply nonempty_true in NT. congruence. }
    split.
    + intros i L. f_equal. apply A. eapply is_last_iff; [|exact L]. intros x. symmetry. apply K.
    + intros L. f_equal. apply B. eapply Forall_impl; [|exact L]. intros x N Q. apply N. now apply K.
  - rewrite andb_false_r. reflexivity.
Qed.
Print Assumptions C37_unknown_name.

Example C37_known_example :
  let f := Info 1 KFunc #"p/q.F" #"p/q" #"F" #"F" [] false false false (Some (7, #"p/q.F")) None in
  let v := Info 2 KVar [] #"p/q" #"v" #"v" [] false false false None (Some 9) in
  known_as f #"p/q.F" /\ known_as v #"p/q.v" /\
  (exists t, register_all empty_table [f; v] = Some t /\ get_func_by_full_name t #"p/q.(*T).M" = Some None) /\
  register_all empty_table [Info 1 KFunc #"p/q.G" #"p/q" #"F" #"F" [] false false false (Some (7, #"p/q.F")) None] = None.
Proof.
  split; [|split; [|split]].
  - repeat split; try discriminate. left. now exists 7.
  - repeat split; try discriminate. right. repeat split; try discriminate. right. discriminate.
  - eexists. split; vm_compute; reflexivity.
  - vm_compute. reflexivity.
Qed.
