(** * The types and imports written for variables (C127) *)
From Coq Require Import Ascii String List Arith Bool Lia.
From Verif Require Import M_Str P_Str M_Version M_Instrument M_VarType T_Instrument2 T_Instrument3.
Import ListNotations.
Open Scope nat_scope.
Open Scope list_scope.

(** ** Specification: what a text means as a type, in a file of package [pkg] with these imports
    (path, name); only exported names of other packages may be used; a list of types in parentheses
    is not a type. *)
Section Spec.
  Variable exported : bytes -> bool.
  Variable pkg : bytes.
  Variable imports : list (bytes * bytes).
  Fixpoint denotes (t : ty) (code : bytes) {struct t} : Prop :=
    match t with
    | Basic n => code = n
    | Named p n => (p = pkg /\ code = n) \/ (p <> pkg /\ exported n = true /\ exists r, In (p, r) imports /\ code = r ++ #"." ++ n)
    | Ptr t => exists c, code = #"*" ++ c /\ denotes t c
    | Slice t => exists c, code = #"[]" ++ c /\ denotes t c
    | Map k v => exists a b, code = #"map[" ++ a ++ #"]" ++ b /\ denotes k a /\ denotes v b
    | Lazy t => denotes t code
    | Tuple [t] => denotes t code
    | Inst t ps => exists c cs, code = c ++ #"[" ++ join #", " cs ++ #"]" /\ denotes t c
        /\ (fix all (ps : list ty) (cs : list bytes) {struct ps} : Prop := match ps, cs with [], [] => True | p :: ps, c :: cs => denotes p c /\ all ps cs | _, _ => False end) ps cs
    | Tuple _ | Signature | Unsupported => False
    end.
End Spec.
Definition all_denote (exported : bytes -> bool) (pkg : bytes) (imports : list (bytes * bytes)) :=
  fix all (ps : list ty) (cs : list bytes) {struct ps} : Prop := match ps, cs with [], [] => True | p :: ps, c :: cs => denotes exported pkg imports p c /\ all ps cs | _, _ => False end.
(** A single type: no list of two types or more, and no empty one. *)
Fixpoint single (t : ty) : Prop :=
  match t with
  | Ptr t | Slice t | Lazy t => single t
  | Map k v => single k /\ single v
  | Tuple [t] => single t
  | Tuple _ => False
  | Inst t ps => single t /\ (fix all ps := match ps with [] => True | p :: ps => single p /\ all ps end) ps
  | _ => True
  end.

Section Ind.
  Variable P : ty -> Prop.
  Hypothesis Hb : forall n, P (Basic n). Hypothesis Hn : forall p n, P (Named p n). Hypothesis Hp : forall t, P t -> P (Ptr t). Hypothesis Hs : P Signature.
  Hypothesis Ht : forall ts, Forall P ts -> P (Tuple ts). Hypothesis Hm : forall k v, P k -> P v -> P (Map k v). Hypothesis Hsl : forall t, P t -> P (Slice t). Hypothesis Hl : forall t, P t -> P (Lazy t).
  Hypothesis Hi : forall t ps, P t -> Forall P ps -> P (Inst t ps). Hypothesis Hu : P Unsupported.
  Fixpoint ty_ind' (t : ty) : P t :=
    let all := fix all (ts : list ty) : Forall P ts := match ts with [] => Forall_nil P | t :: r => Forall_cons t (ty_ind' t) (all r) end in
    match t with
    | Basic n => Hb n | Named p n => Hn p n | Ptr t => Hp t (ty_ind' t) | Signature => Hs | Tuple ts => Ht ts (all ts) | Map k v => Hm k v (ty_ind' k) (ty_ind' v)
    | Slice t => Hsl t (ty_ind' t) | Lazy t => Hl t (ty_ind' t) | Inst t ps => Hi t ps (ty_ind' t) (all ps) | Unsupported => Hu
    end.
End Ind.
Lemma denotes_mono exported pkg a b : (forall e, In e a -> In e b) -> forall t c, denotes exported pkg a t c -> denotes exported pkg b t c.
Proof.
  intros S t. induction t as [n|p n|t IH| |ts IH|k v IHk IHv|t IH|t IH|t ps IHt IHps| ] using ty_ind'; cbn [denotes]; intros c H; auto.
  - destruct H as [H|(N & X & r & I & H)]; [now left|right; split; [exact N|split; [exact X|exists r; auto]]].
  - destruct H as (x & -> & H). eauto.
  - destruct ts as [|t [|u ts]]; auto. inversion IH; auto.
  - destruct H as (x & y & -> & H1 & H2). exists x, y. auto.
  - destruct H as (x & -> & H). eauto.
  - destruct H as (x & cs & -> & H1 & H2). exists x, cs. split; [reflexivity|]. split; [auto|]. clear - IHps H2. revert cs H2. induction IHps as [|p ps H F IH]; intros [|c cs] H2; [exact I|destruct H2|destruct H2|]. destruct H2 as [H2 H3]. split; [apply H; exact H2|apply IH; exact H3].
Qed.

(** The references are told apart by the number at their end. *)
Definition numbered (r : bytes) (n : nat) : Prop := exists l k, r = if 0 <? n then ref_of l k ++ #"_" ++ itoa n else ref_of l k.
Lemma us_cut (a b x y : bytes) : ~ In "_"%char x -> ~ In "_"%char y -> a ++ #"_" ++ x = b ++ #"_" ++ y -> a = b /\ x = y.
Proof.
  intros X Y. revert b. induction a as [|c a IH]; intros [|d b] E; cbn in E.
  - injection E as E. auto.
  - injection E as <- E. exfalso. apply X. rewrite E, in_app_iff. right. now left.
  - injection E as -> E. exfalso. apply Y. rewrite <- E, in_app_iff. right. now left.
  - injection E as <- E. apply IH in E as [-> ->]. auto.
Qed.
Lemma numbered_inj r n m : numbered r n -> numbered r m -> n = m.
Proof.
  intros (l & k & ->) (l' & k' & E). destruct n as [|n], m as [|m]; auto; cbn [Nat.ltb Nat.leb] in E; unfold ref_of in E.
  - exfalso. rewrite !app_assoc in E. rewrite <- !(app_assoc _ #"_") in E. apply us_cut in E as [E _]; try apply itoa_no_us. rewrite <- !app_assoc in E. apply app_inv_head in E.
    apply (itoa_no_us l). rewrite E, !in_app_iff. right. left. now left.
  - exfalso. rewrite !app_assoc in E. rewrite <- !(app_assoc _ #"_") in E. apply us_cut in E as [E _]; try apply itoa_no_us. rewrite <- !app_assoc in E. apply app_inv_head in E.
    apply (itoa_no_us l'). rewrite <- E, !in_app_iff. right. left. now left.
  - apply us_cut in E as [_ E]; try apply itoa_no_us. now apply itoa_inj in E.
Qed.
Lemma pair_inv {X Y} (a c : X) (b d : Y) : (a, b) = (c, d) -> a = c /\ b = d. Proof. intros [= -> ->]. auto. Qed.
Section Use.
  Variable exported : bytes -> bool.
  Variable pkg : bytes.
  (** What is imported (path, name) agrees with the recorder. *)
  Definition agree (c : recorder) (imps : list (bytes * bytes)) : Prop :=
    (forall e, In e (refs c) <-> In e imps) /\ NoDup (map fst imps) /\ NoDup (map snd imps) /\ Forall (fun e => (exists n, n < refNum c /\ numbered (snd e) n) /\ fst e <> pkg /\ fst e <> []) imps.
  Lemma lookup_some l p r : lookup l p = Some r -> In (p, r) l.
  Proof. unfold lookup. destruct (find _ l) as [[q s]|] eqn:F; [|discriminate]. cbn. intros [= <-]. apply find_some in F as [I E]. apply eqs_eq in E. cbn in E. now subst. Qed.
  Lemma lookup_none l p : lookup l p = None -> ~ In p (map fst l).
  Proof. unfold lookup. destruct (find _ l) eqn:F; [discriminate|]. intros _ I. apply in_map_iff in I as (e & <- & I). pose proof (find_none _ _ F _ I) as X. cbn in X. now rewrite (proj2 (eqs_eq (fst e) (fst e)) eq_refl) in X. Qed.
  Lemma agree_new c imps p l k : agree c imps -> p <> pkg -> p <> [] -> ~ In p (map fst imps) ->
    let r := if 0 <? refNum c then ref_of l k ++ #"_" ++ itoa (refNum c) else ref_of l k in
    agree {| refs := (p, r) :: refs c; refNum := S (refNum c) |} (imps ++ [(p, r)]).
  Proof.
    intros (A & B & C & D) NP NE N r. assert (NR : numbered r (refNum c)) by (exists l, k; reflexivity). unfold agree. cbn [refs refNum].
    assert (NS : ~ In r (map snd imps)).
    { intros I. apply in_map_iff in I as ([q x] & E & I). cbn in E. subst x. rewrite Forall_forall in D. destruct (D _ I) as [(n & L & H) _]. cbn in H. pose proof (numbered_inj _ _ _ H NR). lia. }
    assert (SN : forall (X : Type) (l : list X) (a : X), NoDup l -> ~ In a l -> NoDup (l ++ [a])).
    { intros X l0 a ND NI. induction ND as [|b l0 Nb ND IH]; cbn; [repeat constructor; auto|]. constructor; [rewrite in_app_iff; cbn; intros [H|[->|[]]]; [auto|apply NI; now left]|]. apply IH. intros H. apply NI. now right. }
    split; [|split; [|split]].
    - intros e. rewrite in_app_iff. cbn [In]. rewrite A. intuition.
    - rewrite map_app. now apply SN.
    - rewrite map_app. now apply SN.
    - apply Forall_app. split; [eapply Forall_impl; [|exact D]; intros e [(n & L & H) R]; split; [exists n; split; [lia|exact H]|exact R]|]. constructor; [|constructor]. cbn. split; [exists (refNum c); split; [lia|exact NR]|]. auto.
  Qed.
  Section One.
    Variables line col : nat.
    Variable imps : list (bytes * bytes).
    Notation doUse := (doUse exported pkg (ref_of line col)).
    Fixpoint uses (ts : list ty) (s : state) {struct ts} : option (list bytes) * state :=
      match ts with
      | [] => (Some [], s)
      | t :: r => match doUse t s with
                  | (None, s) => (None, s)
                  | (Some c, s) => match uses r s with (None, s) => (None, s) | (Some cs, s) => (Some (c :: cs), s) end
                  end
      end.
    Lemma occurs_ref (r n : bytes) : occurs (r ++ #".") (r ++ #"." ++ n). Proof. exists [], n. rewrite app_nil_l, <- app_assoc. reflexivity. Qed.
    Lemma ref_nonempty l k : eqs (ref_of l k) [] = false. Proof. reflexivity. Qed.
    Definition good (t : ty) (s : state) (code : option bytes) (s' : state) : Prop :=
      agree (rec s') (imps ++ edits s') /\ exists new, edits s' = edits s ++ new
        /\ match code with Some c => (single t -> denotes exported pkg (imps ++ edits s') t c) /\ Forall (fun e => occurs (snd e ++ #".") c) new | None => True end.
    Definition okay (t : ty) : Prop := forall s code s', agree (rec s) (imps ++ edits s) -> doUse t s = (code, s') -> good t s code s'.
    Lemma occurs_mid w a b c : occurs w b -> occurs w (a ++ b ++ c). Proof. intros H. apply occurs_app_r, occurs_app_l, H. Qed.
    Lemma weaken {e1 e2 : list (bytes * bytes)} t c new : e2 = e1 ++ new -> denotes exported pkg (imps ++ e1) t c -> denotes exported pkg (imps ++ e2) t c.
    Proof. intros ->. apply denotes_mono. intros e. rewrite !in_app_iff. tauto. Qed.
    Lemma wrap t t' (f : bytes -> bytes) : okay t -> (forall s, doUse t' s = match doUse t s with (None, s) => (None, s) | (Some c, s) => (Some (f c), s) end) ->
      (forall i c, denotes exported pkg i t c -> denotes exported pkg i t' (f c)) -> (single t' -> single t) -> (forall w c, occurs w c -> occurs w (f c)) -> okay t'.
    Proof.
      intros O E D S F s code s' A H. rewrite E in H. destruct (doUse t s) as [[c|] s1] eqn:U; apply pair_inv in H as [<- <-]; destruct (O _ _ _ A U) as (G & new & N & X); split; auto; exists new; split; auto.
      destruct X as [X1 X2]. split; [auto|]. eapply Forall_impl; [|exact X2]. auto.
    Qed.
    Lemma uses_good ts : Forall okay ts -> forall s codes s', agree (rec s) (imps ++ edits s) -> uses ts s = (codes, s') ->
      agree (rec s') (imps ++ edits s') /\ exists new, edits s' = edits s ++ new
        /\ match codes with Some cs => (Forall single ts -> all_denote exported pkg (imps ++ edits s') ts cs) /\ Forall (fun e => exists c, In c cs /\ occurs (snd e ++ #".") c) new | None => True end.
    Proof.
      induction 1 as [|t ts O F IH]; intros s codes s' A H; cbn [uses] in H.
      - apply pair_inv in H as [<- <-]. split; auto. exists []. rewrite app_nil_r. split; [reflexivity|]. split; [intros _; exact I|constructor].
      - destruct (doUse t s) as [[c|] s1] eqn:U; [|apply pair_inv in H as [<- <-]; destruct (O _ _ _ A U) as (G & new & N & _); split; auto; now exists new].
        destruct (O _ _ _ A U) as (G & new & N & X1 & X2). destruct (uses ts s1) as [[cs|] s2] eqn:V; apply pair_inv in H as [<- <-]; destruct (IH _ _ _ G V) as (G' & new' & N' & Y); split; auto; exists (new ++ new'); (split; [rewrite N', N, app_assoc; reflexivity|]); [|exact I].
        destruct Y as [Y1 Y2]. split.
        + intros S. inversion S; subst. cbn [all_denote]. split; [eapply weaken; [exact N'|auto]|auto].
        + apply Forall_app. split; [eapply Forall_impl; [|exact X2]; intros e Q; exists c; split; [now left|exact Q]|eapply Forall_impl; [|exact Y2]; intros e (x & I1 & Q); exists x; split; [now right|exact Q]].
    Qed.
    Lemma occurs_join w sep cs : forall c, In c cs -> occurs w c -> occurs w (join sep cs).
    Proof.
      induction cs as [|a cs IH]; intros c I O; [destruct I|]. destruct cs as [|b cs].
      - destruct I as [->|[]]. exact O.
      - change (join sep (a :: b :: cs)) with (a ++ sep ++ join sep (b :: cs)). destruct I as [->|I]; [now apply occurs_app_l|]. apply occurs_app_r, occurs_app_r. eapply IH; eauto.
    Qed.
    Lemma all_okay t : okay t.
    Proof.
      induction t as [n|p n|t IH| |ts IH|k v IHk IHv|t IH|t IH|t ps IHt IHps| ] using ty_ind'.
      - intros s code s' A H. apply pair_inv in H as [<- <-]. split; auto. exists []. rewrite app_nil_r. split; [reflexivity|]. split; [reflexivity|constructor].
      - intros s code s' A H. cbn [M_VarType.doUse] in H. destruct (eqs p pkg) eqn:E.
        + apply eqs_eq in E. subst. apply pair_inv in H as [<- <-]. split; auto. exists []. rewrite app_nil_r. split; [reflexivity|]. split; [intros _; now left|constructor].
        + apply eqs_false in E. destruct (exported n) eqn:XP; cbn [negb] in H; [|apply pair_inv in H as [<- <-]; split; auto; exists []; now rewrite app_nil_r].
          unfold RecordImport in H. rewrite ref_nonempty, orb_false_r in H. destruct (eqs p []) eqn:Z; [apply pair_inv in H as [<- <-]; split; auto; exists []; now rewrite app_nil_r|]. apply eqs_false in Z.
          destruct (lookup (refs (rec s)) p) as [r|] eqn:L.
          * apply pair_inv in H as [<- <-]. cbn [rec edits]. split; auto. exists []. cbn [edits]. rewrite app_nil_r. split; [reflexivity|]. split; [|constructor]. intros _. right. split; [exact E|]. split; [exact XP|]. exists r. split; [|reflexivity]. apply (proj1 A). now apply lookup_some.
          * apply pair_inv in H as [<- <-]. apply lookup_none in L. unfold good. cbn [rec edits]. split.
            { rewrite (app_assoc imps (edits s)). apply (agree_new (rec s) (imps ++ edits s) p line col); auto. intros I. apply L. apply in_map_iff in I as (e & <- & I). apply in_map. now apply (proj1 A). }
            eexists. split; [reflexivity|]. split.
            { intros _. right. split; [exact E|]. split; [exact XP|]. eexists. split; [|reflexivity]. rewrite !in_app_iff. right. right. now left. }
            constructor; [|constructor]. cbn [snd]. exact (occurs_ref _ n).
      - apply (wrap t (Ptr t) (fun c => #"*" ++ c)); auto; [intros i c H; exists c; auto|intros; now apply occurs_app_r].
      - intros s code s' A H. apply pair_inv in H as [<- <-]. split; auto. exists []. now rewrite app_nil_r.
      - destruct ts as [|t [|u ts]].
        + intros s code s' A H. apply pair_inv in H as [<- <-]. split; auto. exists []. rewrite app_nil_r. split; [reflexivity|]. split; [intros []|constructor].
        + inversion IH; subst. intros s code s' A H0. exact (H1 s code s' A H0).
        + intros s code s' A H. change (M_VarType.doUse exported pkg (ref_of line col) (Tuple (t :: u :: ts)) s) with (match uses (t :: u :: ts) s with (None, s) => (None, s) | (Some cs, s) => (Some (#"(" ++ join #", " cs ++ #")"), s) end) in H.
          destruct (uses (t :: u :: ts) s) as [[cs|] s1] eqn:U; apply pair_inv in H as [<- <-]; destruct (uses_good _ IH _ _ _ A U) as (G & new & N & X); split; auto; exists new; split; auto.
          destruct X as [_ X]. split; [intros []|]. eapply Forall_impl; [|exact X]. intros e (c & I1 & Q). apply occurs_mid. eapply occurs_join; eauto.
      - intros s code s' A H. cbn [M_VarType.doUse] in H. destruct (doUse k s) as [[a|] s1] eqn:U; [|apply pair_inv in H as [<- <-]; destruct (IHk _ _ _ A U) as (G & new & N & _); split; auto; now exists new].
        destruct (IHk _ _ _ A U) as (G & new & N & X1 & X2). destruct (doUse v s1) as [[b|] s2] eqn:V; apply pair_inv in H as [<- <-]; destruct (IHv _ _ _ G V) as (G' & new' & N' & Y); split; auto; exists (new ++ new'); (split; [rewrite N', N, app_assoc; reflexivity|]); [|exact I].
        destruct Y as [Y1 Y2]. split.
        + intros [S1 S2]. exists a, b. split; [reflexivity|]. split; [eapply weaken; [exact N'|auto]|auto].
        + apply Forall_app. split; [eapply Forall_impl; [|exact X2]; intros e Q; now apply occurs_mid|eapply Forall_impl; [|exact Y2]; intros e Q; now apply occurs_app_r, occurs_app_r, occurs_app_r].
      - apply (wrap t (Slice t) (fun c => #"[]" ++ c)); auto; [intros i c H; exists c; auto|intros; now apply occurs_app_r].
      - intros s code s' A H. exact (IH s code s' A H).
      - intros s code s' A H. change (M_VarType.doUse exported pkg (ref_of line col) (Inst t ps) s) with
          (match uses ps s with (None, s) => (None, s) | (Some cs, s) => match doUse t s with (None, s) => (None, s) | (Some c, s) => (Some (c ++ #"[" ++ join #", " cs ++ #"]"), s) end end) in H.
        destruct (uses ps s) as [[cs|] s1] eqn:U; [|apply pair_inv in H as [<- <-]; destruct (uses_good _ IHps _ _ _ A U) as (G & new & N & _); split; auto; now exists new].
        destruct (uses_good _ IHps _ _ _ A U) as (G & new & N & X1 & X2). destruct (doUse t s1) as [[c|] s2] eqn:V; apply pair_inv in H as [<- <-]; destruct (IHt _ _ _ G V) as (G' & new' & N' & Y); split; auto; exists (new ++ new'); (split; [rewrite N', N, app_assoc; reflexivity|]); [|exact I].
        destruct Y as [Y1 Y2]. split.
        + intros [S1 S2]. exists c, cs. split; [reflexivity|]. split; [auto|]. assert (FS : Forall single ps) by (clear - S2; induction ps as [|p ps IH]; constructor; [apply S2|apply IH; apply S2]).
          specialize (X1 FS). clear - X1 N'. revert cs X1. induction ps as [|p ps IH]; intros [|c cs] X; [exact I|destruct X|destruct X|]. destruct X as [X1 X2]. split; [eapply denotes_mono; [|exact X1]; intros e; rewrite N', !in_app_iff; tauto|apply IH; exact X2].
        + apply Forall_app. split; [eapply Forall_impl; [|exact X2]; intros e (x & I1 & Q); apply occurs_app_r, occurs_mid; eapply occurs_join; eauto|eapply Forall_impl; [|exact Y2]; intros e Q; now apply occurs_app_l].
      - intros s code s' A H. apply pair_inv in H as [<- <-]. split; auto. exists []. now rewrite app_nil_r.
    Qed.
  End One.
  Lemma remove_all (es : list (bytes * bytes)) : forall c (e : bytes * bytes), In e (refs (fold_left (fun c e => Remove c (fst e)) es c)) <-> In e (refs c) /\ ~ In (fst e) (map fst es).
  Proof.
    induction es as [|x es IH]; intros c e; cbn [fold_left map In]; [tauto|]. rewrite IH. unfold Remove. cbn [refs]. rewrite filter_In, negb_true_iff, eqs_false. intuition congruence.
  Qed.
  Lemma remove_num (es : list (bytes * bytes)) : forall c, refNum (fold_left (fun c e => Remove c (fst e)) es c) = refNum c.
  Proof. induction es as [|x es IH]; intros c; [reflexivity|]. cbn [fold_left]. now rewrite IH. Qed.
  Lemma nodup_apart {X} (a b : list X) x : NoDup (a ++ b) -> In x a -> ~ In x b.
  Proof. induction a as [|y a IH]; intros N I; [destruct I|]. inversion N as [|? ? N1 N2]; subst. destruct I as [->|I]; [intros J; apply N1; rewrite in_app_iff; auto|auto]. Qed.
  Lemma nodup_l {X} (a b : list X) : NoDup (a ++ b) -> NoDup a.
  Proof. induction a as [|y a IH]; intros N; [constructor|]. inversion N as [|? ? N1 N2]; subst. constructor; [intros J; apply N1; rewrite in_app_iff; auto|auto]. Qed.
  Lemma use_one line col c imps t : agree c imps -> forall code c' es, useTypeInFile exported pkg (ref_of line col) c t = (code, c', es) ->
    agree c' (imps ++ es) /\ (code = [] \/ (single t -> denotes exported pkg (imps ++ es) t code)) /\ Forall (fun e => occurs (snd e ++ #".") code) es.
  Proof.
    intros A code c' es H. unfold useTypeInFile in H. destruct (doUse _ _ _ t _) as [[x|] s] eqn:U; injection H as <- <- <-.
    - destruct (all_okay line col imps t {| rec := c; edits := [] |} _ _ ltac:(cbn; rewrite app_nil_r; exact A) U) as (G & new & N & X1 & X2). cbn in N. rewrite N in *. auto.
    - destruct (all_okay line col imps t {| rec := c; edits := [] |} _ _ ltac:(cbn; rewrite app_nil_r; exact A) U) as ((G1 & G2 & G3 & G4) & new & N & _). cbn in N. rewrite N in *. rewrite app_nil_r.
      split; [|split; [now left|constructor]]. unfold agree. rewrite remove_num. split; [|split; [|split]].
      + intros e. rewrite remove_all, G1, in_app_iff. rewrite map_app in G2. split.
        * intros [[I|I] K]; [exact I|]. exfalso. apply K. now apply in_map.
        * intros I. split; [now left|]. eapply nodup_apart; [exact G2|now apply in_map].
      + rewrite map_app in G2. eapply nodup_l, G2.
      + rewrite map_app in G3. eapply nodup_l, G3.
      + apply Forall_app in G4 as [G4 _]. exact G4.
  Qed.
  Lemma use_many decls : forall c imps, agree c imps -> forall codes es, use_all exported pkg c decls = (codes, es) ->
    (exists c', agree c' (imps ++ es)) /\ Forall2 (fun d code => code = [] \/ (single (snd d) -> denotes exported pkg (imps ++ es) (snd d) code)) decls codes /\ Forall (fun e => exists code, In code codes /\ occurs (snd e ++ #".") code) es.
  Proof.
    induction decls as [|[[l k] t] decls IH]; intros c imps A codes es H; cbn [use_all] in H.
    - apply pair_inv in H as [<- <-]. rewrite app_nil_r. split; [now exists c|]. split; constructor.
    - destruct (useTypeInFile exported pkg (ref_of l k) c t) as [[code c1] e1] eqn:U. destruct (use_all exported pkg c1 decls) as [codes' e2] eqn:V. apply pair_inv in H as [<- <-].
      destruct (use_one _ _ _ _ _ A _ _ _ U) as (A1 & D1 & O1). destruct (IH _ _ A1 _ _ V) as (A2 & D2 & O2). rewrite <- app_assoc in A2, D2. split; [exact A2|]. split.
      + constructor; [|exact D2]. cbn [snd]. destruct D1 as [D1|D1]; [now left|right]. intros S. eapply denotes_mono; [|exact (D1 S)]. intros e. rewrite !in_app_iff. tauto.
      + apply Forall_app. split; [eapply Forall_impl; [|exact O1]; intros e Q; exists code; split; [now left|exact Q]|eapply Forall_impl; [|exact O2]; intros e (x & I1 & Q); exists x; split; [now right|exact Q]].
  Qed.
  Lemma agree_start : agree {| refs := []; refNum := 0 |} []. Proof. unfold agree. cbn. repeat split; auto; try constructor; try tauto. Qed.

  (** ** C127 *)
  (** Whatever the variables of a file and their types: the text written for a variable denotes its
      type with the imports of the file (or there is none and the variable is left alone). *)
  Theorem C127_text_partial (decls : list (nat * nat * ty)) (codes : list bytes) (imports : list (bytes * bytes)) : file_types exported pkg decls = (codes, imports) ->
    Forall2 (fun d code => code = [] \/ (single (snd d) -> denotes exported pkg imports (snd d) code)) decls codes.
  Proof. intros H. destruct (use_many _ _ _ agree_start _ _ H) as (_ & D & _). exact D. Qed.
  (** And there is one whenever every type in it is a predeclared one, one of the package, or an
      exported one of another package, but no function type or other kind. *)
  Fixpoint writable (t : ty) : Prop :=
    match t with
    | Basic n => n <> []
    | Named p n => n <> [] /\ (p = pkg \/ (p <> [] /\ exported n = true))
    | Ptr t | Slice t | Lazy t => writable t
    | Map k v => writable k /\ writable v
    | Tuple [t] => writable t
    | Inst t ps => writable t /\ (fix all ps := match ps with [] => True | p :: ps => writable p /\ all ps end) ps
    | Tuple _ | Signature | Unsupported => False
    end.
  Lemma writable_text line col t : writable t -> forall s, exists c s', doUse exported pkg (ref_of line col) t s = (Some c, s') /\ c <> [].
  Proof.
    assert (NE : forall (a b : bytes), b <> [] -> a ++ b <> []) by (intros a b N E; now apply app_eq_nil in E as [_ ->]).
    induction t as [n|p n|t IH| |ts IH|k v IHk IHv|t IH|t IH|t ps IHt IHps| ] using ty_ind'; intros W s.
    - exists n, s. auto.
    - destruct W as [W1 W2]. cbn [doUse]. destruct (eqs p pkg) eqn:E; [exists n, s; auto|]. apply eqs_false in E. destruct W2 as [W2|[W2 W3]]; [congruence|]. rewrite W3. cbn [negb]. unfold RecordImport. apply eqs_false in W2. rewrite W2, ref_nonempty. cbn [orb].
      destruct (lookup (refs (rec s)) p); eexists _, _; (split; [reflexivity|]); apply NE; discriminate.
    - destruct (IH W s) as (c & s' & E & N). cbn [doUse]. rewrite E. eexists _, _. split; [reflexivity|discriminate].
    - destruct W.
    - destruct ts as [|t [|u ts]]; [destruct W| |destruct W]. inversion IH; subst. exact (H1 W s).
    - destruct W as [W1 W2]. destruct (IHk W1 s) as (a & s1 & E1 & _). destruct (IHv W2 s1) as (b & s2 & E2 & _). cbn [doUse]. rewrite E1, E2. eexists _, _. split; [reflexivity|discriminate].
    - destruct (IH W s) as (c & s' & E & N). cbn [doUse]. rewrite E. eexists _, _. split; [reflexivity|discriminate].
    - exact (IH W s).
    - destruct W as [W1 W2]. assert (U : exists cs s1, uses line col ps s = (Some cs, s1)).
      { clear IHt W1. revert s. induction IHps as [|p ps Hp F IH]; intros s; [exists [], s; reflexivity|]. destruct W2 as [W2 W3]. destruct (Hp W2 s) as (c & s1 & E & _). destruct (IH W3 s1) as (cs & s2 & E2). exists (c :: cs), s2. cbn [uses]. rewrite E, E2. reflexivity. }
      destruct U as (cs & s1 & U). destruct (IHt W1 s1) as (c & s2 & E & N). exists (c ++ #"[" ++ join #", " cs ++ #"]"), s2. split; [|apply NE; discriminate].
      change (doUse exported pkg (ref_of line col) (Inst t ps) s) with (match uses line col ps s with (None, s) => (None, s) | (Some cs, s) => match doUse exported pkg (ref_of line col) t s with (None, s) => (None, s) | (Some c, s) => (Some (c ++ #"[" ++ join #", " cs ++ #"]"), s) end end).
      rewrite U, E. reflexivity.
    - destruct W.
  Qed.
  Theorem C127_written (decls : list (nat * nat * ty)) (codes : list bytes) (imports : list (bytes * bytes)) : file_types exported pkg decls = (codes, imports) ->
    Forall2 (fun d code => writable (snd d) -> code <> []) decls codes.
  Proof.
    unfold file_types. generalize {| refs := []; refNum := 0 |}. revert codes imports. induction decls as [|[[l k] t] decls IH]; intros codes imports c H; cbn [use_all] in H.
    - apply pair_inv in H as [<- _]. constructor.
    - destruct (useTypeInFile exported pkg (ref_of l k) c t) as [[code c1] e1] eqn:U. destruct (use_all exported pkg c1 decls) as [codes' e2] eqn:V. apply pair_inv in H as [<- _]. constructor; [|exact (IH _ _ _ V)].
      cbn [snd]. intros W. destruct (writable_text l k t W {| rec := c; edits := [] |}) as (x & s' & E & N). unfold useTypeInFile in U. rewrite E in U. congruence.
  Qed.
  (** The imports added: no name and no package twice, never the package itself, and each is used by
      the text of some variable (Go refuses an import that is not). *)
  Theorem C127_imports (decls : list (nat * nat * ty)) (codes : list bytes) (imports : list (bytes * bytes)) : file_types exported pkg decls = (codes, imports) ->
    NoDup (map fst imports) /\ NoDup (map snd imports) /\ forall p r, In (p, r) imports -> p <> pkg /\ p <> [] /\ exists code, In code codes /\ occurs (r ++ #".") code.
  Proof.
    intros H. destruct (use_many _ _ _ agree_start _ _ H) as ((c & _ & N1 & N2 & F) & _ & O). cbn [app] in *. split; [exact N1|]. split; [exact N2|]. intros p r I. rewrite Forall_forall in F, O. destruct (F _ I) as (_ & A & B). destruct (O _ I) as (code & C & D). eauto 6.
  Qed.
  (** Two variables of one call (var a, b = f()): the first is given both types, which is no type. *)
  Theorem C127_pair_refuted (line col : nat) (a b : bytes) : exists code, file_types exported pkg [(line, col, Tuple [Basic a; Basic b])] = ([code], []) /\ code = #"(" ++ a ++ #", " ++ b ++ #")" /\ forall imports, ~ denotes exported pkg imports (Tuple [Basic a; Basic b]) code.
  Proof. eexists. split; [reflexivity|]. split; [cbn [join]; rewrite <- !app_assoc; reflexivity|]. intros imports []. Qed.
  (** Nothing keeps a package from being imported that the file may not import: one under another's internal. *)
  Theorem C127_internal_refuted (line col : nat) (q n : bytes) : exported n = true -> q ++ #"/internal/x" <> pkg ->
    exists r, file_types exported pkg [(line, col, Ptr (Named (q ++ #"/internal/x") n))] = ([#"*" ++ r ++ #"." ++ n], [(q ++ #"/internal/x", r)]).
  Proof.
    intros E N. exists (ref_of line col). unfold file_types, use_all, useTypeInFile. cbn [doUse]. apply eqs_false in N. rewrite N, E. cbn [negb]. unfold RecordImport. cbn [rec refs refNum lookup find option_map].
    assert (X : eqs (q ++ #"/internal/x") [] = false) by (apply eqs_false; intros Y; now apply app_eq_nil in Y as [_ Y]). rewrite X, ref_nonempty. reflexivity.
  Qed.
End Use.
(** Non-vacuity: two variables of types of two packages, one of them shared, and one that cannot be written. *)
Example C127_ex : file_types (fun _ => true) #"m" [(3, 5, Map (Named #"a/b" #"T") Signature); (4, 5, Ptr (Named #"a/b" #"T")); (5, 5, Map (Named #"c" #"K") (Slice (Named #"a/b" #"T")))]
  = ([[]; #"*__xgo_var_ref_4_5_1.T"; #"map[__xgo_var_ref_5_5_2.K][]__xgo_var_ref_4_5_1.T"], [(#"a/b", #"__xgo_var_ref_4_5_1"); (#"c", #"__xgo_var_ref_5_5_2")]).
Proof. reflexivity. Qed.
Print Assumptions C127_text_partial. Print Assumptions C127_imports. Print Assumptions C127_written. Print Assumptions C127_pair_refuted. Print Assumptions C127_internal_refuted.
