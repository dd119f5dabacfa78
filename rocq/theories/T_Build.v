(** * C22-C26, C38, C39: handlers built from user functions.  Model: M_Build. *)
From Coq Require Import Ascii String List Arith Bool Lia.
From Verif Require Import M_Str M_Build.
Import ListNotations.

Lemma ty_eqb_eq a b : ty_eqb a b = true <-> a = b.
Proof. unfold ty_eqb. destruct (ty_dec a b); split; congruence. Qed.
Lemma ty_eqb_refl a : ty_eqb a a = true. Proof. now apply ty_eqb_eq. Qed.

(** ** C22 *)
Lemma skipn_nth {A} (l : list A) i x : nth_error l i = Some x -> skipn i l = x :: skipn (S i) l.
Proof. revert i. induction l as [|y l IH]; intros [|i] E; simpl in E; try discriminate; [simpl; congruence|]. simpl. rewrite (IH i E). reflexivity. Qed.
Lemma in_loop_0 n i a b : i + n <= length a -> i + n <= length b ->
  in_loop n i 0 a b <> MatchPanic /\ (in_loop n i 0 a b = Match <-> firstn n (skipn i a) = firstn n (skipn i b)).
Proof.
  revert i. induction n as [|n IH]; intros i La Lb; simpl.
  - split; [discriminate|tauto].
  - rewrite Nat.add_0_r.
    destruct (nth_error a i) as [x|] eqn:Ea; [|apply nth_error_None in Ea; lia].
    destruct (nth_error b i) as [y|] eqn:Eb; [|apply nth_error_None in Eb; lia].
    rewrite (skipn_nth a i x Ea), (skipn_nth b i y Eb). cbn [firstn].
    destruct (ty_eqb x y) eqn:E.
    + apply ty_eqb_eq in E. subst. destruct (IH (S i)) as [P Q]; [lia|lia|]. split; auto. rewrite Q. simpl. split; congruence.
    + split; [discriminate|]. split; [discriminate|]. intros H. injection H as -> _. now rewrite ty_eqb_refl in E.
Qed.
Lemma in_loop_full a b : length a = length b ->
  in_loop (length a) 0 0 a b <> MatchPanic /\ (in_loop (length a) 0 0 a b = Match <-> a = b).
Proof.
  intros L. destruct (in_loop_0 (length a) 0 a b) as [P Q]; [lia|lia|]. split; auto. rewrite Q. simpl.
  rewrite firstn_all, L, firstn_all. tauto.
Qed.

(** Patch(fn, replacer): accepted exactly when the types are identical. *)
Theorem C22_patch_by_value :
  forall target replacer, patch_accepts target replacer = Accepted <-> replacer = target.
Proof.
  intros [i o v] [i' o' v']. unfold patch_accepts. simpl.
  destruct (list_eq_dec ty_dec i i') as [->|]; [|split; [discriminate|congruence]].
  destruct (list_eq_dec ty_dec o o') as [->|]; [|split; [discriminate|congruence]].
  destruct v, v'; simpl; split; congruence.
Qed.
Print Assumptions C22_patch_by_value.

(** PatchByName: accepted exactly when parameter and result types are identical.
    Missing: variadicity is not compared. *)
Theorem C22_patch_by_name_partial :
  forall target replacer,
    patch_by_name_accepts target replacer = Accepted <->
    f_in replacer = f_in target /\ f_out replacer = f_out target.
Proof.
  intros [i o v] [i' o' v']. unfold patch_by_name_accepts, check_func_type_match. simpl.
  rewrite Nat.add_0_r. destruct (length i =? length i') eqn:L; simpl.
  - apply Nat.eqb_eq in L. destruct (in_loop_full i i' L) as [_ Q].
    destruct (in_loop (length i) 0 0 i i') eqn:E.
    + assert (i = i') by (now apply Q). subst i'. destruct (length o =? length o') eqn:Lo; simpl.
      * apply Nat.eqb_eq in Lo. destruct (in_loop_full o o' Lo) as [_ Q'].
        destruct (in_loop (length o) 0 0 o o') eqn:E'.
        -- assert (o = o') by (now apply Q'). subst. tauto.
        -- split; [discriminate|]. intros [_ ->]. destruct Q' as [_ Q']. now specialize (Q' eq_refl).
        -- split; [discriminate|]. intros [_ ->]. destruct Q' as [_ Q']. now specialize (Q' eq_refl).
      * split; [discriminate|]. intros [_ ->]. now rewrite Nat.eqb_refl in Lo.
    + split; [discriminate|]. intros [-> _]. destruct Q as [_ Q]. now specialize (Q eq_refl).
    + split; [discriminate|]. intros [-> _]. destruct Q as [_ Q]. now specialize (Q eq_refl).
  - split; [discriminate|]. intros [-> _]. now rewrite Nat.eqb_refl in L.
Qed.
Print Assumptions C22_patch_by_name_partial.

(** A variadic function is patched by a non-variadic one. *)
Theorem C22_variadic_refuted :
  exists target replacer, replacer <> target /\ patch_by_name_accepts target replacer = Accepted.
Proof.
  exists (FT [TBase 0; TBase 1] [TErr] true), (FT [TBase 0; TBase 1] [TErr] false).
  split; [discriminate|reflexivity].
Qed.
Print Assumptions C22_variadic_refuted.

(** PatchMethodByName: no replacement whatever is accepted -- with the right types the
    loop of checkFuncTypeMatch (object.go:172) runs past the last input and reflect
    panics. *)
Theorem C22_patch_method_by_name_refuted :
  (forall target replacer, patch_method_by_name_accepts target replacer = Rejected) /\
  (forall recv ins outs v, check_func_type_match (FT (recv :: ins) outs v) (FT ins outs v) true = MatchPanic).
Proof.
  split.
  - intros [i o v] [i' o' v']. unfold patch_method_by_name_accepts, check_func_type_match. simpl.
    destruct (length i =? length i' + 1) eqn:L; simpl; auto. apply Nat.eqb_eq in L.
    assert (N : in_loop (length i) 0 1 i i' <> Match).
    { assert (G : forall n j, j + n = length i - 1 -> in_loop (S n) j 1 i i' <> Match).
      { induction n as [|n IH]; intros j L'; cbn [in_loop].
        - destruct (nth_error i (j + 1)) eqn:E; [|discriminate].
          assert (j + 1 < length i) by (apply nth_error_Some; congruence). lia.
        - destruct (nth_error i (j + 1)); [|discriminate]. destruct (nth_error i' j); [|discriminate].
          destruct (ty_eqb t t0); [|discriminate]. apply IH. lia. }
      replace (length i) with (S (length i - 1)) by lia. apply G. lia. }
    destruct (in_loop (length i) 0 1 i i'); congruence.
  - intros recv ins outs v. unfold check_func_type_match. simpl. rewrite Nat.add_1_r, Nat.eqb_refl. simpl negb. cbv iota.
    assert (G : forall n j, j + n = length ins -> in_loop (S n) j 1 (recv :: ins) ins = MatchPanic).
    { induction n as [|n IH]; intros j L.
      - cbn [in_loop]. replace (nth_error (recv :: ins) (j + 1)) with (@None ty); auto.
        symmetry. apply nth_error_None. simpl. lia.
      - cbn [in_loop]. rewrite Nat.add_1_r. cbn [nth_error].
        destruct (nth_error ins j) as [x|] eqn:E; [|apply nth_error_None in E; lia].
        rewrite ty_eqb_refl. apply IH. lia. }
    change (match in_loop (S (length ins)) 0 1 (recv :: ins) ins with
            | Match => if negb (length outs =? length outs) then Mismatch else in_loop (length outs) 0 0 outs outs
            | r => r end = MatchPanic).
    now rewrite G.
Qed.
Print Assumptions C22_patch_method_by_name_refuted.

(** Patch(&v, replacer) for v of type t: func() T mocks the value, func() *T the
    address, anything else (parameters, other results) is rejected. *)
Theorem C22_variable_replacer :
  forall t replacer,
    (check_var_type t replacer = Some false <-> f_in replacer = [] /\ f_out replacer = [t]) /\
    (check_var_type t replacer = Some true <-> f_in replacer = [] /\ f_out replacer = [TPtr t]).
Proof.
  assert (M : forall t r, check_func_type_match (FT [] [t] false) r false = Match <-> f_in r = [] /\ f_out r = [t]).
  { intros t r. pose proof (C22_patch_by_name_partial (FT [] [t] false) r) as H. unfold patch_by_name_accepts in H.
    simpl in H. rewrite <- H. destruct (check_func_type_match _ r false); split; congruence. }
  assert (NP : forall t r, check_func_type_match (FT [] [t] false) r false <> MatchPanic).
  { intros t [i o v]. unfold check_func_type_match. simpl. destruct i as [|x i]; simpl; [|discriminate].
    destruct o as [|x o]; simpl; [discriminate|]. destruct (length o); simpl; [|discriminate].
    destruct (ty_eqb t x); discriminate. }
  assert (Ne : forall t, t <> TPtr t) by (induction t; congruence).
  intros t r. unfold check_var_type.
  pose proof (M t r) as H1. pose proof (NP t r) as N1. pose proof (M (TPtr t) r) as H2. pose proof (NP (TPtr t) r) as N2.
  destruct (check_func_type_match (FT [] [t] false) r false); [| |congruence].
  - split; [tauto|]. split; [discriminate|]. intros [_ E]. destruct H1 as [H1 _]. destruct (H1 eq_refl) as [_ E2]. exfalso. apply (Ne t). congruence.
  - destruct (check_func_type_match (FT [] [TPtr t] false) r false); [| |congruence].
    + split; [split; [discriminate|]|tauto]. intros E. now apply H1 in E.
    + split; (split; [discriminate|]); intros E; [now apply H1 in E|now apply H2 in E].
Qed.
Print Assumptions C22_variable_replacer.
Example C22_example :
  patch_by_name_accepts (FT [TPtr (TBase 1); TBase 2] [TErr] false) (FT [TPtr (TBase 1); TBase 2] [TErr] false) = Accepted /\
  patch_by_name_accepts (FT [TPtr (TBase 1); TBase 2] [TErr] false) (FT [TBase 2] [TErr] false) = Rejected /\
  check_func_type_match (FT [TPtr (TBase 1)] [TBase 3] false) (FT [] [TBase 3] false) true = MatchPanic.
Proof. repeat split. Qed.

(** ** C23 *)
(** Recording a variable both before and after never succeeds: with equal types the
    handlers agree on value/pointer, and line 59 of record.go rejects exactly that. *)
Theorem C23_pre_and_post_refuted :
  forall t pre post, push_var_recorder t (Some pre) (Some post) = None.
Proof.
  intros t pre post. unfold push_var_recorder. destruct (ftype_eqb pre post) eqn:E; simpl; auto.
  assert (pre = post).
  { unfold ftype_eqb in E. destruct (patch_accepts pre post) eqn:P; [|discriminate]. symmetry. now apply C22_patch_by_value. }
  subst. destruct (option_map snd (check_var_recorder_type t post)); auto. now rewrite eqb_reflx.
Qed.
Print Assumptions C23_pre_and_post_refuted.

(** A single pre or post handler of type func(T) or func( *T) is accepted as a value
    recorder. *)
Theorem C23_single_handler_partial :
  forall t rec, f_in rec = [t] \/ f_in rec = [TPtr t] ->
    push_var_recorder t (Some rec) None = Some false /\ push_var_recorder t None (Some rec) = Some false.
Proof.
  intros t [i o v] H. unfold push_var_recorder, check_var_recorder_type. simpl in *.
  destruct H as [-> | ->]; simpl.
  - rewrite ty_eqb_refl. auto.
  - rewrite ty_eqb_refl. destruct (ty_eqb (TPtr t) t); auto.
Qed.
Print Assumptions C23_single_handler_partial.

(** Which single handlers are accepted, and for which reads: func(T) and func( *T) for
    reads of the value; func( **T) is accepted too, as pre handler for reads of the
    address but as post handler for reads of the value; anything else panics. *)
Theorem C23_single_handler_table :
  forall t rec,
    (push_var_recorder t (Some rec) None = Some false <-> f_in rec = [t] \/ f_in rec = [TPtr t]) /\
    (push_var_recorder t (Some rec) None = Some true <-> f_in rec = [TPtr (TPtr t)]) /\
    (push_var_recorder t None (Some rec) = Some false <-> f_in rec = [t] \/ f_in rec = [TPtr t] \/ f_in rec = [TPtr (TPtr t)]) /\
    push_var_recorder t None (Some rec) <> Some true.
Proof.
  assert (N1 : forall t, TPtr t <> t) by (intros t; induction t; congruence).
  assert (N2 : forall t, TPtr (TPtr t) <> t).
  { set (size := fix size (t : ty) : nat := match t with TPtr t => S (size t) | _ => 0 end).
    intros t E. apply (f_equal size) in E. cbn in E. lia. }
  assert (L : forall (a b : ty), [a] = [b] <-> a = b) by (intros; split; congruence).
  intros t [i o v]. specialize (N1 t) as M1. specialize (N2 t) as M2. unfold push_var_recorder, check_var_recorder_type. cbn [f_in].
  destruct i as [|p [|q i]]; cbn [resolve_arg_types]; cbn [option_map snd].
  - repeat split; intros; repeat match goal with H : _ \/ _ |- _ => destruct H end; congruence.
  - rewrite !L. destruct (ty_eqb p t) eqn:E1; cbn [option_map snd].
    { apply ty_eqb_eq in E1. subst. repeat split; intros; auto; congruence. }
    destruct (ty_eqb p (TPtr t)) eqn:E2; cbn [option_map snd].
    { apply ty_eqb_eq in E2. subst. repeat split; intros; auto; congruence. }
    destruct (ty_eqb p (TPtr (TPtr t))) eqn:E3; cbn [option_map snd].
    { apply ty_eqb_eq in E3. subst. repeat split; intros; auto; try (destruct H as [H|H]); congruence. }
    assert (E : forall w, ty_eqb p w = false -> p <> w) by (intros w H; intros <-; now rewrite ty_eqb_refl in H).
    apply E in E1, E2, E3. repeat split; intros; try discriminate; tauto.
  - destruct (ty_eqb p t), (ty_eqb p (TPtr t)), (ty_eqb p (TPtr (TPtr t))); cbn [option_map snd];
      repeat split; intros; repeat match goal with H : _ \/ _ |- _ => destruct H end; congruence.
Qed.
Print Assumptions C23_single_handler_table.

(** ** Stores *)
Lemma get_put_eq s l v c : get s l = Some c -> get (put s l v) l = Some (fst c, v).
Proof.
  unfold get. revert l. induction s as [|[t x] s IH]; intros [|l] H; simpl in *; try discriminate.
  - injection H as <-. reflexivity.
  - now apply IH.
Qed.
Lemma get_put_ne s l l' v : l <> l' -> get (put s l v) l' = get s l'.
Proof.
  unfold get. revert l l'. induction s as [|[t x] s IH]; intros [|l] [|l'] H; simpl; auto; try congruence.
Qed.
Lemma length_put s l v : length (put s l v) = length s.
Proof. revert l. induction s as [|[t x] s IH]; intros [|l]; simpl; auto. Qed.

(** User code may change the contents of cells but not their types, and may allocate. *)
Definition extends (s s' : store) : Prop := forall l t v, get s l = Some (t, v) -> exists v', get s' l = Some (t, v').
Definition typed_fn (t : ftype) (f : user_fn) : Prop :=
  forall vs s, match f vs s with
               | Ret rs s' => length rs = length (f_out t) /\ extends s s'
               | Panic _ _ => True
               end.
(** The cells hold values of these types. *)
Definition cells_ok (s : store) (ls : list nat) (ts : list ty) : Prop :=
  Forall2 (fun l t => exists v, get s l = Some (t, v)) ls ts.
Definition values (s : store) (ls : list nat) : list value :=
  map (fun l => match get s l with Some (_, v) => v | None => VNil end) ls.

Lemma f2_length {A B} (R : A -> B -> Prop) a b : Forall2 R a b -> length a = length b.
Proof. induction 1; simpl; auto. Qed.
Lemma cells_ok_app s a b ta tb : cells_ok s a ta -> cells_ok s b tb -> cells_ok s (a ++ b) (ta ++ tb).
Proof. apply Forall2_app. Qed.
Lemma read_args_ok s ls ts : cells_ok s ls ts ->
  exists cs, read_args (length ts) ls s = Some cs /\ map fst cs = ts /\ map snd cs = values s ls.
Proof.
  induction 1 as [|l t ls ts [v E] F IH]; simpl.
  - exists []. auto.
  - destruct IH as (cs & R & A & B). rewrite E, R. exists ((t, v) :: cs). simpl. rewrite A, B. auto.
Qed.
Lemma cells_ok_extends s s' ls ts : cells_ok s ls ts -> extends s s' -> cells_ok s' ls ts.
Proof. intros F E. induction F as [|l t ls ts [v G] F IH]; constructor; auto. eauto. Qed.

(** What a caller sees after the results were set. *)
Definition results_are (s' s'' : store) (results : list nat) (vs : list value) : Prop :=
  values s'' results = vs /\ length s'' = length s' /\
  (forall l, ~ In l results -> get s'' l = get s' l).

Lemma set_results_ok results ts vs s : cells_ok s results ts -> NoDup results -> length vs = length ts ->
  exists s', set_results results ts vs s = Ret true s' /\ results_are s s' results vs.
Proof.
  revert ts vs s. induction results as [|r results IH]; intros ts vs s F ND L.
  - inversion F; subst. destruct vs; [|discriminate]. exists s. simpl. repeat split; auto.
  - inversion F as [|? t ? ts' [v E] F' E1 E2]; subst. destruct vs as [|w vs]; [discriminate|]. injection L as L.
    inversion ND as [|? ? NI ND']; subst. cbn [set_results]. rewrite E, ty_eqb_refl.
    destruct (IH ts' vs (put s r w)) as (s' & R & V & Len & O); auto.
    { assert (X : Forall (fun l => l <> r) results) by (apply Forall_forall; intros l I ->; contradiction).
      clear -F' X. induction F' as [|l t ls ts [v G] F IH]; constructor; inversion X; subst; [eexists; rewrite get_put_ne by auto; exact G|now apply IH]. }
    exists s'. split; auto. split; [|split].
    + simpl. rewrite (O r NI), (get_put_eq s r w _ E). simpl. now rewrite V.
    + rewrite Len. apply length_put.
    + intros l N. simpl in N. rewrite O by tauto. apply get_put_ne. tauto.
Qed.

(** ** C26 *)
(** The parameters a replacement is given: the receiver first, unless it is bound to
    an instance, then the arguments. *)
Definition passed (bound : bool) (recv : option nat) (args : list nat) : list nat :=
  match recv with Some r => if bound then args else r :: args | None => args end.

Theorem C26_replacement :
  forall bound t f recv args results s,
    typed_fn t f ->
    (bound = true -> recv <> None) ->
    cells_ok s (passed bound recv args) (f_in t) ->
    cells_ok s results (f_out t) -> NoDup results ->
    match f (values s (passed bound recv args)) s with
    | Panic p s' => mock_handler bound t f recv args results s = Panic p s'
    | Ret vs s' => exists s'', mock_handler bound t f recv args results s = Ret true s'' /\ results_are s' s'' results vs
    end.
Proof.
  intros bound t f recv args results s TF HB CA CR ND.
  assert (CALL : forall cs, map fst cs = f_in t -> map snd cs = values s (passed bound recv args) ->
     match f (values s (passed bound recv args)) s with
     | Panic p s' => match reflect_call t f cs s with Panic p s' => Panic p s' | Ret vs s' => set_results results (f_out t) vs s' end = Panic p s'
     | Ret vs s' => exists s'', match reflect_call t f cs s with Panic p s' => Panic p s' | Ret vs s' => set_results results (f_out t) vs s' end = Ret true s'' /\ results_are s' s'' results vs
     end).
  { intros cs A B. unfold reflect_call. rewrite A, B. destruct (list_eq_dec ty_dec (f_in t) (f_in t)); [|congruence].
    specialize (TF (values s (passed bound recv args)) s). destruct (f _ s) as [vs s'|p s']; auto.
    destruct TF as [Lv Ex]. apply set_results_ok; auto. eapply cells_ok_extends; eauto. }
  unfold mock_handler. destruct recv as [r|]; [|destruct bound; [exfalso; now apply HB|]]; simpl passed in *.
  - rewrite andb_false_r. destruct bound.
    + rewrite Nat.sub_0_r. destruct (read_args_ok s args (f_in t) CA) as (cs & R & A & B). rewrite R. simpl app. now apply CALL.
    + inversion CA as [|? t0 ? ts [v E] F E1 E2]; subst. cbn [length]. change (0 <? S (length ts)) with true. cbv iota.
      rewrite E. simpl option_map. cbv iota beta. simpl length. rewrite Nat.sub_succ, Nat.sub_0_r.
      destruct (read_args_ok s args ts F) as (cs & R & A & B). rewrite R. simpl app. apply CALL.
      * simpl. rewrite <- E2. now rewrite A.
      * simpl. unfold values. simpl. rewrite E. f_equal. exact B.
  - simpl. rewrite Nat.sub_0_r. destruct (read_args_ok s args (f_in t) CA) as (cs & R & A & B). rewrite R. now apply CALL.
Qed.
Print Assumptions C26_replacement.

(** A recorder whose parameters are, position by position, the type or the pointer type
    of the recorded function's parameters and results is given exactly the receiver (if
    not bound), the arguments and the results, by value or by pointer. *)
Definition passed_as (by_ptr : bool) (s : store) (l : nat) : value :=
  if by_ptr then VPtr l else match get s l with Some (_, v) => v | None => VNil end.
Theorem C26_recorder :
  forall bound fn rt f by_ptr recv args results s,
    (bound = true -> recv <> None) ->
    f_in rt = map (fun pt : bool * ty => if fst pt then TPtr (snd pt) else snd pt) (combine by_ptr (f_in fn ++ f_out fn)) ->
    length by_ptr = length (f_in fn ++ f_out fn) ->
    cells_ok s (passed bound recv args ++ results) (f_in fn ++ f_out fn) ->
    exists h, recorder_handler bound fn rt f = Some h /\
      h recv args results s =
        f (map (fun pl : bool * nat => passed_as (fst pl) s (snd pl)) (combine by_ptr (passed bound recv args ++ results))) s.
Proof.
  intros bound fn rt f by_ptr recv args results s HB Hin Hlen C.
  assert (Ne : forall t, ty_eqb (TPtr t) t = false).
  { intros t. destruct (ty_eqb (TPtr t) t) eqn:E; auto. apply ty_eqb_eq in E. exfalso. revert E. induction t; congruence. }
  assert (RA : resolve_arg_types (f_in rt) (f_in fn ++ f_out fn) = Some by_ptr).
  { rewrite Hin. revert Hlen. clear -Ne. revert by_ptr. induction (f_in fn ++ f_out fn) as [|t l IH]; intros [|p ps] L; simpl in *; try discriminate; auto.
    injection L as L. destruct p; simpl.
    - rewrite Ne, ty_eqb_refl, IH by auto. reflexivity.
    - rewrite ty_eqb_refl, IH by auto. reflexivity. }
  unfold recorder_handler. rewrite RA. eexists. split; [reflexivity|]. simpl.
  set (want := f_in fn ++ f_out fn) in *.
  assert (PG : exists cs, ptr_gets by_ptr s (passed bound recv args ++ results) = Some cs /\
     map fst cs = f_in rt /\ map snd cs = map (fun pl : bool * nat => passed_as (fst pl) s (snd pl)) (combine by_ptr (passed bound recv args ++ results)) /\ length cs = length want).
  { rewrite Hin. clear -C Hlen. revert by_ptr Hlen. induction C as [|l t ls ts [v E] F IH]; intros [|p ps] L; simpl in *; try discriminate.
    - exists []. auto.
    - injection L as L. destruct (IH ps L) as (cs & R & A & B & Len). unfold ptr_get at 1. rewrite E, R.
      destruct p; eexists; (split; [reflexivity|]); simpl; rewrite A, B, Len; unfold passed_as; simpl; try rewrite E; auto. }
  destruct PG as (cs & R & A & B & Len).
  assert (LOC : (match recv with Some r => if bound then [] else if 0 <? length want then [r] else [] | None => [] end) ++ args ++ results
     = passed bound recv args ++ results).
  { destruct recv as [r|]; simpl; auto. destruct bound; simpl; auto.
    destruct (length want) eqn:L0; auto. simpl in C. apply f2_length in C. simpl in C. fold want in C. lia. }
  destruct recv as [r|]; [rewrite andb_false_r|destruct bound; [exfalso; now apply HB|simpl andb]]; cbv iota;
    rewrite LOC, R, Len, Nat.eqb_refl; unfold reflect_call; rewrite A, B;
    destruct (list_eq_dec ty_dec (f_in rt) (f_in rt)); congruence.
Qed.
Print Assumptions C26_recorder.

Example C26_example :
  let add : user_fn := fun vs s => match vs with [VPtr _; VNum a; VNum b] => Ret [VNum (a + b)] s | _ => Panic PRuntime s end in
  let t := FT [TPtr (TBase 1); TBase 0; TBase 0] [TBase 0] false in
  let s := [(TPtr (TBase 1), VPtr 9); (TBase 0, VNum 3); (TBase 0, VNum 4); (TBase 0, VNum 0)] in
  typed_fn t add /\ cells_ok s (passed false (Some 0) [1; 2]) (f_in t) /\
  mock_handler false t add (Some 0) [1; 2] [3] s = Ret true [(TPtr (TBase 1), VPtr 9); (TBase 0, VNum 3); (TBase 0, VNum 4); (TBase 0, VNum 7)].
Proof.
  split; [|split; [|reflexivity]].
  - intros vs s. destruct vs as [|[] [|[] [|[] []]]]; simpl; auto. split; auto. intros k u w K; eauto.
  - repeat constructor; eexists; reflexivity.
Qed.

(** ** C25, C39 *)
Lemma zip_names_ok names ls : length ls <= length names -> zip_names names ls = Some (combine names ls).
Proof.
  revert names. induction ls as [|l ls IH]; intros [|n names] H; simpl in *; try lia; auto. now rewrite IH by lia.
Qed.
(** The objects given to an interceptor: receiver (if not bound) and arguments, and the
    results, under their declared names. *)
Definition arg_object (bound : bool) (fi : finfo) (recv : option nat) (args : list nat) : obj :=
  match recv with Some r => if bound then combine (fi_arg_names fi) args else (fi_recv_name fi, r) :: combine (fi_arg_names fi) args
             | None => combine (fi_arg_names fi) args end.
Definition res_object (fi : finfo) (results : list nat) : obj := combine (fi_res_names fi) results.
(** The context given: the call's own context argument, unless it has none or nil. *)
Definition call_ctx (fi : finfo) (args : list nat) (s : store) : ctx :=
  if fi_first_ctx fi then
    match values s (firstn 1 args) with [VNil] => CtxTODO | [v] => CtxOf v | _ => CtxTODO end
  else CtxTODO.
Definition well_formed (bound : bool) (fi : finfo) (recv : option nat) (args results : list nat) (s : store) : Prop :=
  (bound = true -> recv <> None) /\ length args <= length (fi_arg_names fi) /\ length results <= length (fi_res_names fi) /\
  (fi_first_ctx fi = true -> exists a r c, args = a :: r /\ get s a = Some c) /\
  (fi_last_err fi = true -> results <> []).

Lemma objects_ok bound fi recv args results s : well_formed bound fi recv args results s ->
  guard_recv bound recv = false /\
  build_objects bound fi recv args results = Some (arg_object bound fi recv args, res_object fi results) /\
  build_ctx fi args s = Some (call_ctx fi args s).
Proof.
  intros (B & LA & LR & CX & _). split; [|split].
  - destruct bound, recv; auto. exfalso. now apply B.
  - unfold build_objects. rewrite !zip_names_ok by auto. unfold arg_object. destruct recv; auto. now destruct bound.
  - unfold build_ctx, call_ctx. destruct (fi_first_ctx fi); auto.
    destruct (CX eq_refl) as (a & r & [t v] & -> & G). simpl. rewrite G. destruct v; auto.
Qed.

(** A mock interceptor: no error: the call is replaced; an error becomes the last
    result if the function has one of type error and a panic otherwise. *)
Theorem C25_mock_interceptor :
  forall bound ic fi recv args results s,
    well_formed bound fi recv args results s ->
    let r := ic (call_ctx fi args s) (arg_object bound fi recv args) (res_object fi results) s in
    match r with
    | Panic p s' => mock_from_interceptor bound ic fi recv args results s = Panic p s'
    | Ret None s' => mock_from_interceptor bound ic fi recv args results s = Ret true s'
    | Ret (Some e) s' =>
        if fi_last_err fi then
          exists rs l, results = rs ++ [l] /\
            mock_from_interceptor bound ic fi recv args results s = Ret true (put s' l (VErr e))
        else mock_from_interceptor bound ic fi recv args results s = Panic (PErr e) s'
    end.
Proof.
  intros bound ic fi recv args results s W r. destruct (objects_ok _ _ _ _ _ _ W) as (G & O & C).
  destruct W as (_ & _ & _ & _ & LE). unfold mock_from_interceptor. rewrite G, O, C. fold r.
  destruct r as [[e|] s'|p s']; simpl; auto. destruct (fi_last_err fi); auto.
  destruct results as [|x rs] using rev_ind; [exfalso; now apply LE|]. exists rs, x. split; auto.
  now rewrite rev_app_distr.
Qed.
Print Assumptions C25_mock_interceptor.

(** A pre interceptor: ErrMocked means replaced and touches no result; any other error
    is written to the last result, or panics, and the call goes on (data kept). *)
Theorem C25_pre_interceptor :
  forall bound ic fi recv args results s,
    well_formed bound fi recv args results s ->
    let r := ic (call_ctx fi args s) (arg_object bound fi recv args) (res_object fi results) s in
    match r with
    | Panic p s' => pre_from_interceptor bound ic fi recv args results s = Panic p s'
    | Ret (d, None) s' => pre_from_interceptor bound ic fi recv args results s = Ret (Some d, false) s'
    | Ret (d, Some e) s' =>
        if e =? err_mocked then pre_from_interceptor bound ic fi recv args results s = Ret (None, true) s'
        else if fi_last_err fi then
          exists rs l, results = rs ++ [l] /\
            pre_from_interceptor bound ic fi recv args results s = Ret (Some d, false) (put s' l (VErr e))
        else pre_from_interceptor bound ic fi recv args results s = Panic (PErr e) s'
    end.
Proof.
  intros bound ic fi recv args results s W r. destruct (objects_ok _ _ _ _ _ _ W) as (G & O & C).
  destruct W as (_ & _ & _ & _ & LE). unfold pre_from_interceptor. rewrite G, O, C. fold r.
  destruct r as [[d [[|e]|]] s'|p s']; simpl; auto. destruct (fi_last_err fi); auto.
  destruct results as [|x rs] using rev_ind; [exfalso; now apply LE|]. exists rs, x. split; auto.
  now rewrite rev_app_distr.
Qed.
Print Assumptions C25_pre_interceptor.

Theorem C25_post_interceptor :
  forall bound ic fi recv args results d s,
    well_formed bound fi recv args results s ->
    let r := ic (call_ctx fi args s) (arg_object bound fi recv args) (res_object fi results) d s in
    match r with
    | Panic p s' => post_from_interceptor bound ic fi recv args results d s = Panic p s'
    | Ret None s' => post_from_interceptor bound ic fi recv args results d s = Ret tt s'
    | Ret (Some e) s' =>
        if fi_last_err fi then
          exists rs l, results = rs ++ [l] /\
            post_from_interceptor bound ic fi recv args results d s = Ret tt (put s' l (VErr e))
        else post_from_interceptor bound ic fi recv args results d s = Panic (PErr e) s'
    end.
Proof.
  intros bound ic fi recv args results d s W r. destruct (objects_ok _ _ _ _ _ _ W) as (G & O & C).
  destruct W as (_ & _ & _ & _ & LE). unfold post_from_interceptor. rewrite G, O, C. fold r.
  destruct r as [[e|] s'|p s']; simpl; auto. destruct (fi_last_err fi); auto.
  destruct results as [|x rs] using rev_ind; [exfalso; now apply LE|]. exists rs, x. split; auto.
  now rewrite rev_app_distr.
Qed.
Print Assumptions C25_post_interceptor.

(** The caller's view: after an erring mock interceptor the error result is that error
    and the other results are what the interceptor left. *)
Theorem C25_caller_sees_error :
  forall bound ic fi recv args results s rs l e s' t v,
    well_formed bound fi recv args results s -> fi_last_err fi = true -> results = rs ++ [l] -> ~ In l rs ->
    ic (call_ctx fi args s) (arg_object bound fi recv args) (res_object fi results) s = Ret (Some e) s' ->
    get s' l = Some (t, v) ->
    exists s'', mock_from_interceptor bound ic fi recv args results s = Ret true s'' /\
      get s'' l = Some (t, VErr e) /\ values s'' rs = values s' rs.
Proof.
  intros bound ic fi recv args results s rs l e s' t v W LE ER NI EI G.
  pose proof (C25_mock_interceptor bound ic fi recv args results s W) as H. cbv zeta in H. rewrite EI, LE in H.
  destruct H as (rs' & l' & ER' & ->). rewrite ER in ER'. apply app_inj_tail in ER' as [<- <-].
  eexists. split; [reflexivity|]. split; [apply (get_put_eq _ _ _ _ G)|].
  unfold values. apply map_ext_in. intros x I. rewrite get_put_ne; auto. intros ->. contradiction.
Qed.
Print Assumptions C25_caller_sees_error.

(** C39: the interceptor is given the call's own context. *)
Theorem C39_context_of_the_call :
  forall bound ic fi recv a args results s t v,
    well_formed bound fi recv (a :: args) results s -> fi_first_ctx fi = true -> get s a = Some (t, v) -> v <> VNil ->
    mock_from_interceptor bound ic fi recv (a :: args) results s =
    mock_from_interceptor bound (fun _ => ic (CtxOf v)) fi recv (a :: args) results s.
Proof.
  intros bound ic fi recv a args results s t v W F G N. destruct (objects_ok _ _ _ _ _ _ W) as (Gd & O & C).
  unfold mock_from_interceptor. rewrite Gd, O, C. unfold call_ctx. rewrite F. simpl. rewrite G. destruct v; congruence.
Qed.
Print Assumptions C39_context_of_the_call.

Definition ex_fi := FI #"r" [#"ctx"; #"x"] [#"n"; #"err"] true true.
Example C25_example :
  let s := [(TPtr (TBase 1), VPtr 8); (TCtx, VNum 5); (TBase 0, VNum 2); (TBase 0, VNum 0); (TErr, VNil)] in
  well_formed false ex_fi (Some 0) [1; 2] [3; 4] s /\
  mock_from_interceptor false (fun c a r s => match c, a with CtxOf (VNum 5), [(_, 0); (_, 1); (_, 2)] => Ret (Some 7) s | _, _ => Ret None s end)
    ex_fi (Some 0) [1; 2] [3; 4] s
  = Ret true [(TPtr (TBase 1), VPtr 8); (TCtx, VNum 5); (TBase 0, VNum 2); (TBase 0, VNum 0); (TErr, VErr 7)].
Proof.
  split; [|reflexivity]. unfold well_formed. simpl. repeat split; try lia; try discriminate.
  intros _. do 3 eexists. split; reflexivity.
Qed.

(** ** C24, C38 *)
(** [vt] with the mock of variable [v] (by value / by address) set. *)
Definition set_val (vt : var_tables) v m := VT (fun x => if x =? v then m else vt_val vt x) (vt_ptr vt).
Definition set_ptr (vt : var_tables) v m := VT (vt_val vt) (fun x => if x =? v then m else vt_ptr vt x).
(** A replacement that only computes a value. *)
Definition pure_replacer (f : user_fn) (w : value) : Prop := forall s, f [] s = Ret [w] s.

Lemma get_app_l s x l c : get s l = Some c -> get (s ++ x) l = Some c.
Proof. unfold get. intros H. rewrite nth_error_app1; auto. apply nth_error_Some. congruence. Qed.
Lemma get_last s c : get (s ++ [c]) (length s) = Some c.
Proof. unfold get. rewrite nth_error_app2, Nat.sub_diag; auto. Qed.
Lemma get_lt s l c : get s l = Some c -> l < length s.
Proof. intros H. apply nth_error_Some. unfold get in H. congruence. Qed.

(** With a value mock in force the read yields the mock's value, and every variable --
    the mocked one included -- keeps its value; without one the read yields the
    variable's value. *)
Theorem C24_read :
  forall vt v t x s, get s v = Some (t, x) ->
    (forall f w, vt_val vt v = Some (var_replacer t f) -> pure_replacer f w ->
       exists s', read_var vt v s = Ret w s' /\ forall l c, get s l = Some c -> get s' l = Some c) /\
    (vt_val vt v = None ->
       exists s', read_var vt v s = Ret x s' /\ forall l c, get s l = Some c -> get s' l = Some c).
Proof.
  intros vt v t x s G. unfold read_var. rewrite G. unfold run_var. split.
  - intros f w -> P. unfold var_replacer. rewrite (P _), get_last, ty_eqb_refl.
    rewrite (get_put_eq _ _ _ _ (get_last s (t, x))). eexists. split; [reflexivity|].
    intros l c H. rewrite get_put_ne by (apply get_lt in H; lia). now apply get_app_l.
  - intros ->. rewrite get_last. eexists. split; [reflexivity|]. intros l c H. now apply get_app_l.
Qed.
Print Assumptions C24_read.

(** Reading the address: with a pointer mock, the mock's pointer; otherwise the
    variable's own address; the variable is untouched. *)
Theorem C24_read_address :
  forall vt v t x s, get s v = Some (t, x) ->
    (forall f w, vt_ptr vt v = Some (var_replacer (TPtr t) f) -> pure_replacer f w ->
       exists s', read_addr vt v s = Ret w s' /\ forall l c, get s l = Some c -> get s' l = Some c) /\
    (vt_ptr vt v = None ->
       exists s', read_addr vt v s = Ret (VPtr v) s' /\ forall l c, get s l = Some c -> get s' l = Some c).
Proof.
  intros vt v t x s G. unfold read_addr. rewrite G. unfold run_var. split.
  - intros f w -> P. unfold var_replacer. rewrite (P _), get_last, ty_eqb_refl.
    rewrite (get_put_eq _ _ _ _ (get_last s _)). eexists. split; [reflexivity|].
    intros l c H. rewrite get_put_ne by (apply get_lt in H; lia). now apply get_app_l.
  - intros ->. rewrite get_last. eexists. split; [reflexivity|]. intros l c H. now apply get_app_l.
Qed.
Print Assumptions C24_read_address.

(** A mock of the value does not affect reads of the address and vice versa, whatever
    the mocks do. *)
Theorem C24_value_and_address_are_separate :
  forall vt v m s x,
    read_addr (set_val vt v m) x s = read_addr vt x s /\ read_var (set_ptr vt v m) x s = read_var vt x s.
Proof. intros. split; reflexivity. Qed.
Print Assumptions C24_value_and_address_are_separate.

(** A replacement with side effects: the mocked variable changes only if the
    replacement itself changes it. *)
Theorem C24_only_the_replacement_writes :
  forall vt v t x s f w s1, get s v = Some (t, x) ->
    vt_val vt v = Some (var_replacer t f) -> f [] (s ++ [(t, x)]) = Ret [w] s1 -> extends (s ++ [(t, x)]) s1 ->
    exists s', read_var vt v s = Ret w s' /\ forall l, l <> length s -> get s' l = get s1 l.
Proof.
  intros vt v t x s f w s1 G E F X. unfold read_var. rewrite G, E. unfold run_var, var_replacer. match goal with |- context [f [] ?z] => replace (f [] z) with (@Ret (list value) [w] s1) by (symmetry; exact F) end.
  destruct (X (length s) t x (get_last s _)) as [y Y]. rewrite Y, ty_eqb_refl, (get_put_eq _ _ _ _ Y).
  eexists. split; [reflexivity|]. intros l N. apply get_put_ne. auto.
Qed.
Print Assumptions C24_only_the_replacement_writes.

Example C24_example :
  let s := [(TBase 0, VNum 1)] in
  let vt := VT (fun x => if x =? 0 then Some (var_replacer (TBase 0) (fun _ s => Ret [VNum 5] s)) else None) (fun _ => None) in
  read_var vt 0 s = Ret (VNum 5) [(TBase 0, VNum 1); (TBase 0, VNum 5)] /\
  read_addr vt 0 s = Ret (VPtr 0) [(TBase 0, VNum 1); (TPtr (TBase 0), VPtr 0)].
Proof. split; reflexivity. Qed.

(** C38: an error returned by an interceptor mocking a variable panics (ErrMocked
    excepted). *)
Theorem C38_variable_interceptor_error :
  forall name ic res s e s', ic CtxBackground [] [(name, res)] s = Ret (Some e) s' ->
    var_interceptor name ic res s = (if e =? err_mocked then Ret tt s' else Panic (PErr e) s').
Proof. intros name ic res s e s' H. unfold var_interceptor. rewrite H. now destruct e. Qed.
Print Assumptions C38_variable_interceptor_error.

(** Registered by name for the address ("*v"), the error is silently dropped. *)
Theorem C38_error_of_address_mock_by_name_refuted :
  forall name ic res s e s', ic CtxBackground [] [(name, res)] s = Ret (Some e) s' ->
    var_ptr_interceptor_by_name name ic res s = Ret tt s'.
Proof. intros name ic res s e s' H. unfold var_ptr_interceptor_by_name. now rewrite H. Qed.
Print Assumptions C38_error_of_address_mock_by_name_refuted.
