(** * Lemmas about the resolution of expressions (M_Resolve) *)
From Coq Require Import Ascii String List Arith Bool Lia.
From Verif Require Import M_Str P_Str M_Resolve.
Import ListNotations.
Open Scope nat_scope.
Open Scope list_scope.

(** ** Monotonicity: more fuel changes nothing once something is known *)
Lemma under_mono (f g : scope -> expr -> ty) (H : forall sc e, f sc e <> TUnknown -> g sc e = f sc e) :
  forall n t, under f n t <> TUnknown -> forall m, n <= m -> under g m t = under f n t.
Proof.
  induction n as [|n IH]; intros t N m L; [now cbn in N|]. destruct m as [|m]; [lia|]. assert (L' : n <= m) by lia. cbn [under] in *. destruct t; auto.
  - destruct (under f n t) eqn:E; try (now exfalso; apply N); rewrite (IH t) by (auto; rewrite E; discriminate); now rewrite E.
  - destruct (f sc e) eqn:E; [exfalso; apply N; destruct n; reflexivity|..]; rewrite (H sc e) by (rewrite E; discriminate); rewrite E; apply IH; auto; now rewrite <- E.
Qed.
Definition pick (v : ty) (x : bytes) : info :=
  match match v with TRaw u => u | _ => v end with
  | TStruct fs => match assoc fs x with Some ft => IObj (OValue ft) | None => IUnknown end
  | _ => IUnknown
  end.
Definition own (W : world) (p' n' x : bytes) : bool :=
  match W p' n' with Some d => match assoc (methods d) x with Some _ => true | None => false end | None => false end.
Lemma field_obj_eq W f n t x :
  field_obj W f n t x =
  match (let r := match force_lazy f t with TPtr e => force_lazy f e | _ => force_lazy f t end in match r with TInst u => u | _ => r end) with
  | TNamed p nm u => let '(p', n') := resolve_alias p nm u in
      if own W p' n' x then IObj (OMethod p' n' x) else pick (under f n (force_lazy f t)) x
  | _ => IUnknown
  end.
Proof. reflexivity. Qed.
Lemma field_mono W f g n m t x i (H : forall sc e, f sc e <> TUnknown -> g sc e = f sc e) :
  n <= m -> field_obj W f n t x = i -> i <> IUnknown -> field_obj W g m t x = i.
Proof.
  intros L E N.
  assert (F : forall t, force_lazy f t <> TUnknown -> force_lazy g t = force_lazy f t) by (intros []; cbn; auto).
  rewrite field_obj_eq in *. cbv zeta in *.
  assert (NU : force_lazy f t <> TUnknown) by (intros U; rewrite U in E; now subst i).
  rewrite (F t NU). set (r := force_lazy f t) in *. clearbody r. clear F t NU.
  assert (F : forall t, force_lazy f t <> TUnknown -> force_lazy g t = force_lazy f t) by (intros []; cbn; auto).
  assert (Q : forall e, r = TPtr e -> force_lazy g e = force_lazy f e).
  { intros e Er. subst r. apply F. intros U. rewrite U in E. now subst i. }
  assert (R : match r with TPtr e => force_lazy g e | _ => r end = match r with TPtr e => force_lazy f e | _ => r end).
  { destruct r; auto. }
  rewrite R. set (k := match match r with TPtr e => force_lazy f e | _ => r end with TInst u => u | _ => match r with TPtr e => force_lazy f e | _ => r end end) in *.
  clearbody k. destruct k; try (now subst i; exfalso; apply N). destruct (resolve_alias pkg name k) as [p' n']. destruct (own W p' n' x); auto.
  destruct (under f n r) eqn:U; try (now subst i; exfalso; apply N); rewrite (under_mono f g H n) by (auto; rewrite U; discriminate); rewrite U; auto.
Qed.
Lemma res_mono1 W : forall n sc e, res W n sc e <> IUnknown -> res W (S n) sc e = res W n sc e.
Proof.
  induction n as [|n IH]; intros sc e N; [now exfalso; apply N|].
  assert (T : forall sc e, as_type (res W n sc e) <> TUnknown -> as_type (res W (S n) sc e) = as_type (res W n sc e)).
  { intros sc0 e0 X. rewrite IH; auto. intros Y. now rewrite Y in X. }
  remember (S n) as k eqn:K.
  assert (G : forall sc e, res W n sc e = IUnknown \/ res W k sc e = res W n sc e).
  { intros sc0 e0. destruct (res W n sc0 e0) eqn:E; auto; right; rewrite <- E; apply IH; now rewrite E. }
  assert (M : forall t, under (fun sc e => as_type (res W n sc e)) n t <> TUnknown ->
     under (fun sc e => as_type (res W k sc e)) k t = under (fun sc e => as_type (res W n sc e)) n t).
  { intros t X. apply under_mono with (n := n); auto. lia. }
  assert (MF : forall t x, field_obj W (fun sc e => as_type (res W n sc e)) n t x <> IUnknown ->
     field_obj W (fun sc e => as_type (res W k sc e)) k t x = field_obj W (fun sc e => as_type (res W n sc e)) n t x).
  { intros t x X. eapply field_mono with (n := n); [|idtac|reflexivity|exact X]; auto. lia. }
  rewrite K in N. rewrite K at 2. cbn [res] in *. cbv zeta in *.
  assert (C : forall i, IUnknown <> i -> i <> IUnknown) by auto.
  Ltac sub G N := match type of N with context [res ?W ?n ?sc ?e] => 
    let Z := fresh "Z" in destruct (G sc e) as [Z|Z]; [rewrite ?Z in N; cbn in N; try (now exfalso; apply N)|rewrite ?Z; clear Z; destruct (res W n sc e); cbn [as_type] in *; try reflexivity; try (now exfalso; apply N)] end.
  destruct e; auto.
  - destruct (get_def (s_frames sc) x) as [d|].
    + destruct (d_multi d); auto. sub G N.
    + destruct (has (s_frames sc) x); auto. destruct (W (s_pkg sc) x) as [d|]; auto. destruct (kind d); auto.
      * destruct (typ d); auto. sub G N.
      * destruct (typ d); [sub G N|]. destruct (value d); auto. sub G N.
  - sub G N; [|destruct (type_of o); auto]. destruct t; auto. destruct (W path x); auto.
  - sub G N.
  - sub G N.
  - sub G N.
    + destruct (under (fun sc e => as_type (res W n sc e)) n (type_of o)) eqn:U; try (now exfalso; apply N); rewrite M, U by (rewrite U; discriminate); reflexivity.
    + destruct (eqs name _); [destruct args as [|a [|]]; auto; sub G N|].
      destruct (eqs name _); [destruct args as [|a ?]; auto; sub G N|].
      destruct (eqs name _); [destruct args as [|a ?]; auto; sub G N|]. reflexivity.
  - assert (Y : forall t, res W n sc t = IUnknown \/ as_type (res W k sc t) = as_type (res W n sc t)).
    { intros t. destruct (G sc t) as [Z|Z]; auto. right. now rewrite Z. }
    destruct e; match goal with |- context [as_type (res W k sc ?t)] => destruct (Y t) as [Z|Z]; [rewrite Z in N; now exfalso; apply N|rewrite Z] end; auto.
    destruct (Y e2) as [Z2|Z2]; [rewrite Z2 in N; destruct (as_type (res W n sc e1)); now exfalso; apply N|now rewrite Z2].
  - sub G N. sub G N.
  - sub G N.
Qed.
Lemma res_mono W n m sc e i : res W n sc e = i -> i <> IUnknown -> n <= m -> res W m sc e = i.
Proof. intros E N L. induction L as [|m L IH]; auto. rewrite res_mono1; auto. now rewrite IH. Qed.
