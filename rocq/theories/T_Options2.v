(** * C58-C61: arguments, the go command, XGO_FLAGS, packages *)
From Coq Require Import Ascii String List Arith Bool Lia.
From Verif Require Import M_Str M_Options T_Options.
Import ListNotations.
Open Scope nat_scope.

Lemma known_ok c : forallb (fun e => noeq (fst e) && has_prefix (fst e) #"-" && negb (existsb (eqs (fst e)) [#"-"; #"--"; #"-args"; #"--args"])) (known c) = true.
Proof. destruct c; reflexivity. Qed.
Lemma known_in c n x : In (n, x) (known c) ->
  ~ In "="%char n /\ has_prefix n #"-" = true /\ n <> #"-" /\ n <> #"--" /\ n <> #"-args" /\ n <> #"--args".
Proof.
  intros I. pose proof (proj1 (forallb_forall _ _) (known_ok c) _ I) as H. cbn [fst] in H. apply andb_prop in H as [H H3]. apply andb_prop in H as [H1 H2].
  split; [now apply noeq_ok|]. split; auto. apply negb_true_iff in H3. cbn [existsb] in H3. apply orb_false_elim in H3 as [E1 H3]. apply orb_false_elim in H3 as [E2 H3].
  apply orb_false_elim in H3 as [E3 H3]. apply orb_false_elim in H3 as [E4 H3].
  repeat split; intros ->; rewrite eqs_refl in *; discriminate.
Qed.
Fixpoint distinct (l : list (bytes * (field * kind))) : bool :=
  match l with [] => true | (n, _) :: r => match look n r with None => distinct r | Some _ => false end end.
Lemma known_distinct c : distinct (known c) = true.
Proof. destruct c; vm_compute; reflexivity. Qed.
Lemma look_in l n x : distinct l = true -> (In (n, x) l <-> look n l = Some x).
Proof.
  induction l as [|[m y] l IH]; intros D; cbn [distinct look] in *; [split; [intros []|discriminate]|].
  destruct (look m l) eqn:Lm; [discriminate|]. specialize (IH D). destruct (eqs n m) eqn:E.
  - apply eqs_eq in E. subst m. split.
    + intros [Q|I]; [now injection Q as ->|]. apply IH in I. congruence.
    + intros Q. injection Q as ->. now left.
  - rewrite <- IH. split; [|now right]. intros [Q|I]; auto. injection Q as -> ->. rewrite eqs_refl in E. discriminate.
Qed.
Lemma look_known c n x : In (n, x) (known c) <-> look n (known c) = Some x.
Proof. apply look_in, known_distinct. Qed.

Lemma dashed_iff w : dashed w <-> has_prefix w #"-" = true.
Proof.
  unfold dashed. rewrite has_prefix_iff. split; intros [r ->]; exists r; reflexivity.
Qed.
Lemma not_dashed w : ~ dashed w <-> has_prefix w #"-" = false.
Proof. rewrite dashed_iff. destruct (has_prefix w #"-"); split; congruence. Qed.
Lemma own_iff c w rest : own c w <-> classify c w rest <> NotThis.
Proof.
  rewrite classify_spec. split.
  - intros (n & f & k & I & [->|(K & v & ->)]); pose proof (known_in _ _ _ I) as (N & _); apply look_known in I.
    + destruct (key_name n N) as [-> ->]. rewrite I. destruct k; cbn [act]; [discriminate|now destruct rest|destruct (meaning _); discriminate].
    + destruct (key_eq n v N) as [-> ->]. rewrite I. destruct k; cbn [act needs]; [congruence|discriminate|destruct (meaning _); discriminate].
  - intros H. destruct (look (key w) (known c)) as [[f k]|] eqn:L; [|now cbn in H]. apply look_known in L. exists (key w), f, k. split; auto.
    destruct (key_spec w) as [(V & K & _)|(v & V & K & _)]; [left; congruence|]. right. split; eauto. intros ->. rewrite V in H. now apply H.
Qed.
Lemma program_iff c : takes_program c <-> cmd_eqb c Run || cmd_eqb c Exec = true.
Proof. unfold takes_program. destruct c; simpl; split; try discriminate; try (intros []; discriminate); auto. Qed.
Lemma program_false c : ~ takes_program c <-> cmd_eqb c Run || cmd_eqb c Exec = false.
Proof. rewrite program_iff. destruct (_ || _); split; congruence. Qed.

Definition st (A : list (field * bytes)) (F : list bytes) : parsed := {| p_set := A; p_remain := F; p_test := [] |}.
(** A word that starts with a dash and is not special goes to the classification. *)
Lemma parse_dash c w args A F : has_prefix w #"-" = true -> ~ special c w ->
  parse_from c (w :: args) (st A F) =
  match classify c w args with
  | Assign f v next => if next then match args with [] => Failed | _ :: rest' => parse_from c rest' (st (A ++ [(f, v)]) F) end else parse_from c args (st (A ++ [(f, v)]) F)
  | Error => Failed | Panic => Panicked
  | NotThis => if containsc "="%char w then parse_from c args (st A (F ++ [w]))
               else match args with
                    | n :: rest' => if negb (has_prefix n #"-") then parse_from c rest' (st A (F ++ [w; n])) else parse_from c args (st A (F ++ [w]))
                    | [] => parse_from c args (st A (F ++ [w])) end
  end.
Proof.
  intros P S. cbn [parse_from]. rewrite P. cbn [negb].
  assert (S1 : cmd_eqb c Test && (eqs w #"-args" || eqs w #"--args") = false).
  { destruct (_ && _) eqn:E; auto. exfalso. apply S. apply andb_prop in E as [C E]. right. right. split; [now destruct c|].
    apply orb_prop in E as [E|E]; apply eqs_eq in E; auto. }
  rewrite S1. assert (S2 : eqs w #"--" = false). { destruct (eqs w #"--") eqn:E; auto. exfalso. apply S. apply eqs_eq in E. right. now left. }
  assert (S3 : eqs w #"-" = false). { destruct (eqs w #"-") eqn:E; auto. exfalso. apply S. apply eqs_eq in E. now left. }
  rewrite S2, S3. reflexivity.
Qed.
Lemma name_not_special c n x : In (n, x) (known c) -> ~ special c n.
Proof. intros I. apply known_in in I as (_ & _ & H). unfold special. intuition congruence. Qed.
Lemma eq_not_special c n v : ~ special c (n ++ #"=" ++ v).
Proof.
  intros S. assert (In "="%char (n ++ #"=" ++ v)) as I by (apply in_or_app; right; now left).
  destruct S as [S|[S|[_ [S|S]]]]; rewrite S in I; cbn in I; repeat (destruct I as [I|I]; [discriminate|]); destruct I.
Qed.
Lemma prefix_app n v : has_prefix n #"-" = true -> has_prefix (n ++ v) #"-" = true.
Proof. rewrite !has_prefix_iff. intros [r ->]. exists (r ++ v). now rewrite app_assoc. Qed.

Lemma means_sound c args A F r : means c args A F r -> parse_from c args (st A F) = r.
Proof.
  induction 1 as [A F|w args A F r P D M IH|w args A F P D|w args A F r D O S P M IH|args A F|w args A F -> W|
                  name f args A F r I M IH|name f v args A F r I M IH|name f v args A F r I M IH|
                  name f m args A F r I M IH R C|name f m v args A F r I M IH R C|args A F|name f A F I].
  - reflexivity.
  - cbn [parse_from]. apply not_dashed in D. apply program_false in P. rewrite D, P. exact IH.
  - cbn [parse_from]. apply not_dashed in D. apply program_iff in P. now rewrite D, P.
  - apply dashed_iff in D. rewrite parse_dash by auto. destruct (classify c w args) eqn:E; try (exfalso; apply O; apply (own_iff c w args); rewrite E; discriminate).
    destruct (containsc "="%char w) eqn:Q; auto. assert (NP : ~ takes_program c) by (intros T; apply P, containsc_in in T; congruence).
    destruct args as [|n args]; auto. destruct (has_prefix n #"-") eqn:Dn; auto. cbn [negb]. rewrite <- IH. cbn [parse_from]. apply program_false in NP. rewrite Dn, NP. cbn [negb].
    unfold forward, st. cbn [p_set p_remain p_test]. now rewrite <- app_assoc.
  - cbn [parse_from]. change (has_prefix #"--" #"-") with true. change (eqs #"--" #"-args" || eqs #"--" #"--args") with false. rewrite andb_false_r. reflexivity.
  - destruct W as [-> | ->]; reflexivity.
  - pose proof (known_in _ _ _ I) as (N & P & _). pose proof (name_not_special _ _ _ I) as S. apply look_known in I.
    rewrite parse_dash, classify_spec by auto. destruct (key_name name N) as [-> ->]. rewrite I. exact IH.
  - pose proof (known_in _ _ _ I) as (N & P & _). pose proof (name_not_special _ _ _ I) as S. apply look_known in I.
    rewrite parse_dash, classify_spec by auto. destruct (key_name name N) as [-> ->]. rewrite I. exact IH.
  - pose proof (known_in _ _ _ I) as (N & P & _). apply look_known in I.
    rewrite parse_dash, classify_spec by (auto using prefix_app, eq_not_special). destruct (key_eq name v N) as [-> ->]. rewrite I. exact IH.
  - pose proof (known_in _ _ _ I) as (N & P & _). pose proof (name_not_special _ _ _ I) as S. apply look_known in I.
    rewrite parse_dash, classify_spec by auto. destruct (key_name name N) as [-> ->]. rewrite I. cbn [act dflt]. destruct (m []); symmetry; auto.
    symmetry. now apply IH.
  - pose proof (known_in _ _ _ I) as (N & P & _). apply look_known in I.
    rewrite parse_dash, classify_spec by (auto using prefix_app, eq_not_special). destruct (key_eq name v N) as [-> ->]. rewrite I. cbn [act dflt]. destruct (m v); symmetry; auto.
    symmetry. now apply IH.
  - cbn [parse_from]. change (has_prefix #"-" #"-") with true. change (eqs #"-" #"-args" || eqs #"-" #"--args") with false. rewrite andb_false_r. reflexivity.
  - pose proof (known_in _ _ _ I) as (N & P & _). pose proof (name_not_special _ _ _ I) as S. apply look_known in I.
    rewrite parse_dash, classify_spec by auto. destruct (key_name name N) as [-> ->]. rewrite I. reflexivity.
Qed.
Lemma special_dec c w : special c w \/ ~ special c w.
Proof.
  unfold special. destruct (eqs w #"-") eqn:E1; [apply eqs_eq in E1; auto|]. destruct (eqs w #"--") eqn:E2; [apply eqs_eq in E2; auto|].
  assert (w <> #"-") by (intros ->; discriminate). assert (w <> #"--") by (intros ->; discriminate).
  destruct (eqs w #"-args") eqn:E3; [apply eqs_eq in E3; destruct c; subst; [right; intuition congruence..|left; auto|right; intuition congruence|right; intuition congruence]|].
  assert (w <> #"-args") by (intros ->; discriminate).
  destruct (eqs w #"--args") eqn:E4; [apply eqs_eq in E4; destruct c; subst; [right; intuition congruence..|left; auto|right; intuition congruence|right; intuition congruence]|].
  assert (w <> #"--args") by (intros ->; discriminate). right. intuition congruence.
Qed.
Lemma means_complete c : ~ takes_program c -> forall args A F, means c args A F (parse_from c args (st A F)).
Proof.
  intros NP. assert (G : forall n args A F, length args <= n -> means c args A F (parse_from c args (st A F))); [|eauto].
  induction n as [|n IH]; intros [|w args] A F L; try (cbn [length] in L; lia); [apply s_end|apply s_end|]. cbn [length] in L.
  destruct (has_prefix w #"-") eqn:D.
  2:{ apply s_word; auto; [now apply not_dashed|]. cbn [parse_from]. rewrite D. cbn [negb]. rewrite (proj1 (program_false c) NP). apply IH. lia. }
  destruct (special_dec c w) as [[->|[->|[-> W]]]|S].
  - rewrite (means_sound _ _ _ _ _ (s_dash c args A F)). apply s_dash.
  - rewrite (means_sound _ _ _ _ _ (s_rest c args A F)). apply s_rest.
  - rewrite (means_sound _ _ _ _ _ (s_args Test w args A F eq_refl W)). now apply s_args.
  - rewrite parse_dash by auto. destruct (classify c w args) as [f v nx| | |] eqn:E.
    + rewrite classify_spec in E. destruct (look (key w) (known c)) as [[f' k]|] eqn:Lk; [|discriminate]. apply look_known in Lk.
      destruct (key_spec w) as [(V & K & _)|(x & V & K & _)]; rewrite V in E; destruct k; cbn [act needs dflt] in E.
      * injection E as -> <- <-. rewrite K in Lk. eapply s_alone; eauto. apply IH. lia.
      * destruct args as [|y args]; [discriminate|]. injection E as -> <- <-. rewrite K in Lk. eapply s_value_next; eauto. apply IH. cbn [length] in L. lia.
      * destruct (meaning []) eqn:M; [|discriminate..]. injection E as -> <- <-. rewrite K in Lk. eapply s_may; eauto; rewrite M; try discriminate.
        intros v' Q. injection Q as <-. apply IH. lia.
      * discriminate.
      * injection E as -> <- <-. rewrite K. eapply s_value_eq; eauto. apply IH. lia.
      * destruct (meaning x) eqn:M; [|discriminate..]. injection E as -> <- <-. rewrite K. eapply s_may_eq; eauto; rewrite M; try discriminate.
        intros v' Q. injection Q as <-. apply IH. lia.
    + rewrite classify_spec in E. destruct (look (key w) (known c)) as [[f' k]|] eqn:Lk; [|discriminate]. apply look_known in Lk.
      destruct (key_spec w) as [(V & K & _)|(x & V & K & _)]; rewrite V in E; destruct k; cbn [act needs dflt] in E; try discriminate.
      * destruct args; [|discriminate]. rewrite K in Lk. eapply s_missing; eauto.
      * destruct (meaning []) eqn:M; try discriminate. rewrite K in Lk. eapply s_may; eauto; rewrite M; try discriminate; auto.
      * destruct (meaning x) eqn:M; try discriminate. rewrite K. eapply s_may_eq; eauto; rewrite M; try discriminate; auto.
    + rewrite classify_spec in E. destruct (look (key w) (known c)) as [[f' k]|] eqn:Lk; [|discriminate]. apply look_known in Lk.
      destruct (key_spec w) as [(V & K & _)|(x & V & K & _)]; rewrite V in E; destruct k; cbn [act needs dflt] in E; try discriminate.
      * destruct args; discriminate.
      * destruct (meaning []) eqn:M; try discriminate. rewrite K in Lk. eapply s_may; eauto; rewrite M; try discriminate; auto.
      * destruct (meaning x) eqn:M; try discriminate. rewrite K. eapply s_may_eq; eauto; rewrite M; try discriminate; auto.
    + assert (O : ~ own c w) by (intros O; apply (own_iff c w args) in O; congruence).
      assert (X : means c args A (F ++ [w]) (parse_from c args (st A (F ++ [w])))) by (apply IH; lia).
      assert (Y : means c (w :: args) A F (parse_from c args (st A (F ++ [w])))).
      { apply s_foreign; auto; [now apply dashed_iff|intros T; contradiction]. }
      destruct (containsc "="%char w); auto. destruct args as [|y args]; auto. destruct (has_prefix y #"-") eqn:Dy; auto. cbn [negb].
      cbn [parse_from] in Y. rewrite Dy in Y. cbn [negb] in Y. rewrite (proj1 (program_false c) NP) in Y.
      unfold forward, st in *. cbn [p_set p_remain p_test] in Y. now rewrite <- app_assoc in Y.
Qed.

(** For build, test and setup the arguments mean exactly what the specification says, for
    every list of arguments. *)
Theorem C58_arguments :
  forall c args r, c = Build \/ c = Test \/ c = Setup ->
    (parse_options c args = r <-> means c args (defaults c) [] r).
Proof.
  intros c args r C. assert (NP : ~ takes_program c) by (intros [T|T]; subst c; intuition discriminate).
  assert (E : parse_options c args = parse_from c args (st (defaults c) [])) by (destruct c; reflexivity). rewrite E. split.
  - intros <-. now apply means_complete.
  - apply means_sound.
Qed.
Print Assumptions C58_arguments.
(** For run and exec: the same, as long as every foreign flag before the program carries its
    value with "=". *)
Theorem C58_run_exec_partial :
  forall c args r, means c args (defaults c) [] r -> parse_options c args = r.
Proof.
  intros c args r M. assert (E : parse_options c args = parse_from c args (st (defaults c) [])) by (destruct c; reflexivity). rewrite E. now apply means_sound.
Qed.
Print Assumptions C58_run_exec_partial.
(** A foreign flag without "=" takes the next word along, even if that is the program: then
    the program's own arguments are read as xgo's. *)
Theorem C58_program_arguments_refuted :
  ~ (forall c flag program args, takes_program c -> dashed flag -> ~ own c flag -> ~ special c flag -> ~ dashed program ->
      parse_options c (flag :: program :: args) = got (defaults c) (flag :: program :: args) []).
Proof.
  intros H. assert (X := H Run #"-race" #"main.go" [#"-v"]). vm_compute in X. 
  enough (Y : Parsed {| p_set := [(FV, #"true")]; p_remain := [#"-race"; #"main.go"]; p_test := [] |} = got [] [#"-race"; #"main.go"; #"-v"] []) by discriminate Y.
  apply X; [now left|exists #"race"; reflexivity| | |].
  - intros O. apply (own_iff Run #"-race" []) in O. apply O. vm_compute. reflexivity.
  - intros [S|[S|[S _]]]; discriminate S.
  - apply not_dashed. reflexivity.
Qed.
Print Assumptions C58_program_arguments_refuted.
(** A value that starts with a dash is not recognised as the value of a foreign flag: if it is
    spelled like one of xgo's own flags, it is taken away from it. *)
Theorem C58_foreign_values_refuted :
  ~ (forall c flag v args p, ~ takes_program c -> dashed flag -> ~ own c flag -> ~ special c flag ->
      parse_options c (flag :: v :: args) = Parsed p -> exists l, p_remain p = flag :: v :: l).
Proof.
  intros H. destruct (H Build #"-ldflags" #"-v" [#"./a"] {| p_set := [(FV, #"true")]; p_remain := [#"-ldflags"; #"./a"]; p_test := [] |}) as [l X].
  - apply program_false. reflexivity.
  - exists #"ldflags". reflexivity.
  - intros O. apply (own_iff Build #"-ldflags" []) in O. apply O. vm_compute. reflexivity.
  - intros [S|[S|[S _]]]; discriminate S.
  - vm_compute. reflexivity.
  - discriminate X.
Qed.
Print Assumptions C58_foreign_values_refuted.

(** Arguments none of which is xgo's reach go unchanged and in order, for every command. *)
Theorem C58_foreign_arguments_forwarded :
  forall c args, Forall (fun w => ~ own c w /\ ~ special c w) args -> parse_options c args = got (defaults c) args [].
Proof.
  intros c args H. assert (E : parse_options c args = parse_from c args (st (defaults c) [])) by (destruct c; reflexivity). rewrite E. clear E.
  assert (G : forall n args F, length args <= n -> Forall (fun w => ~ own c w /\ ~ special c w) args -> parse_from c args (st (defaults c) F) = got (defaults c) (F ++ args) []).
  2:{ rewrite (G _ args [] (le_n _)); auto. }
  clear. induction n as [|n IH]; intros [|w args] F L H; try (cbn [length] in L; lia); try (rewrite app_nil_r; reflexivity).
  inversion H as [|? ? [O S] H']; subst. cbn [length] in L. destruct (has_prefix w #"-") eqn:D.
  - rewrite parse_dash by auto. destruct (classify c w args) eqn:E; try (exfalso; apply O; apply (own_iff c w args); rewrite E; discriminate).
    assert (X : parse_from c args (st (defaults c) (F ++ [w])) = got (defaults c) (F ++ w :: args) []) by (rewrite IH by (auto; lia); now rewrite <- app_assoc).
    destruct (containsc "="%char w); auto. destruct args as [|y args]; auto. destruct (has_prefix y #"-"); auto. cbn [negb].
    inversion H'; subst. cbn [length] in L. rewrite IH by (auto; lia). now rewrite <- app_assoc.
  - cbn [parse_from]. rewrite D. cbn [negb]. destruct (cmd_eqb c Run || cmd_eqb c Exec); [reflexivity|].
    change (forward (st (defaults c) F) [w]) with (st (defaults c) (F ++ [w])). rewrite (IH args (F ++ [w])) by (auto; lia). now rewrite <- app_assoc.
Qed.
Print Assumptions C58_foreign_arguments_forwarded.
Example C58_example :
  parse_options Test [#"-v"; #"--trap-all"; #"-count=1"; #"./..."; #"-run"; #"-x"; #"--strace=off"; #"--trap"; #"a/b"; #"-short"; #"-args"; #"-v"] =
  got [(FTrapStdlib, #"true"); (FV, #"true"); (FTrapAll, #"true"); (FRun, #"-x"); (FStrace, #"off"); (FTrap, #"a/b")] [#"-count=1"; #"./..."; #"-short"] [#"-v"] /\
  parse_options Build [#"--strace=x"] = Panicked /\ parse_options Build [#"-o"] = Failed.
Proof. repeat split; vm_compute; reflexivity. Qed.
