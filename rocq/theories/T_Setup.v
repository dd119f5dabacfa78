(** * C66: setting up the patched GOROOT survives crashes *)
From Coq Require Import List Arith Bool Lia.
From Verif Require Import M_Setup.
Import ListNotations.

(** ** Specification *)
(** What the copy must hold for revision r: every file xgo changes, as r changes it, and all other
    files of GOROOT as they are; nothing else. *)
Definition target (w : world) (r : revision) (p : path) : option content :=
  if in_dec Nat.eq_dec p (w_changed w r) then Some (Pat r) else if in_dec Nat.eq_dec p (w_orig w) then Some Orig else None.
Definition complete (w : world) (r : revision) (s : state) : Prop := dir s = true /\ forall p, file s p = target w r p.
Definition fresh (s : state) : Prop := rev_file s = Absent /\ record_file s = false /\ dir s = false /\ forall p, file s p = None.
(** Between runs that ended well: nothing is there, or a complete copy. *)
Definition settled (w : world) (s : state) : Prop :=
  fresh s \/ exists r, rev_file s = Holds r /\ record_file s = true /\ complete w r s.
(** All revisions of xgo rebuild the same files outside src. *)
Definition same_binaries (w : world) : Prop :=
  forall r r' p, w_src w p = false -> In p (w_changed w r) -> In p (w_changed w r').
Definition deletion (e : effect) : Prop := match e with DelFile _ | DelDir | DelRecord | DelRev => True | _ => False end.
(** The orders visit what there is to visit. *)
Definition visits (w : world) (r : revision) (s : state) (o : orders) : Prop :=
  (forall p, In p (copy_order o) <-> In p (w_orig w)) /\
  (forall p, In p (patch_order o) <-> In p (w_changed w r)) /\
  (forall p, file s p <> None -> In p (remove_order o)) /\
  (forall e, In e (reset_order o) -> deletion e) /\
  In DelRev (reset_order o) /\ In DelRecord (reset_order o) /\ In DelDir (reset_order o) /\
  (forall p, file s p <> None -> In (DelFile p) (reset_order o)).
(** Runs of xgo at revision r that crashed after k effects; one that resets gets at least as
    far as having removed the old copy. *)
Inductive attempts (w : world) (r : revision) : state -> state -> Prop :=
| at_none s : attempts w r s s
| at_crash s o reset k s' :
    visits w r s o -> (reset = true -> length (reset_order o) <= k) ->
    attempts w r (apply s (firstn k (setup_effects w o r reset s))) s' -> attempts w r s s'.

(** ** Proofs *)
Fixpoint always (P : state -> Prop) (s : state) (l : list effect) : Prop :=
  P s /\ match l with [] => True | e :: l => always P (apply1 s e) l end.
Lemma apply_app s a b : apply s (a ++ b) = apply (apply s a) b.
Proof. apply fold_left_app. Qed.
Lemma always_app P a : forall s b, always P s a -> always P (apply s a) b -> always P s (a ++ b).
Proof. induction a as [|e a IH]; intros s b A B; auto. destruct A as [A1 A2]. split; auto. Qed.
Lemma always_firstn P l : forall s k, always P s l -> P (apply s (firstn k l)).
Proof. induction l as [|e l IH]; intros s k A; destruct k; cbn [firstn]; try (destruct A; auto; fail). apply (IH (apply1 s e) k). destruct A; auto. Qed.
Lemma always_start P s l : always P s l -> P s. Proof. destruct l; intros [A _]; auto. Qed.
Lemma always_end P l : forall s, always P s l -> P (apply s l).
Proof. induction l as [|e l IH]; intros s A; [destruct A; auto|]. apply (IH (apply1 s e)). destruct A; auto. Qed.
Lemma always_impl (P Q : state -> Prop) l : (forall s, P s -> Q s) -> forall s, always P s l -> always Q s l.
Proof. intros H. induction l as [|e l IH]; intros s [A B]; split; auto. Qed.
Lemma upd_eq f p c : upd f p c p = c. Proof. unfold upd. now rewrite Nat.eqb_refl. Qed.
Lemma upd_ne f p c q : q <> p -> upd f p c q = f q. Proof. intros N. unfold upd. now rewrite (proj2 (Nat.eqb_neq q p) N). Qed.

Section S.
Context (w : world) (r : revision) (SB : same_binaries w).
(** Outside src, a copy on record is complete but for what r rebuilds. *)
Definition B (s : state) : Prop :=
  record_file s = true -> dir s = true /\ forall p, w_src w p = false ->
    (In p (w_orig w) -> exists c, file s p = Some c /\ (c = Orig \/ In p (w_changed w r))) /\ (~ In p (w_orig w) -> file s p <> None -> In p (w_changed w r)).
Definition J (s : state) : Prop := (rev_file s = Holds r -> complete w r s /\ record_file s = true) /\ B s.
Definition K (s : state) : Prop := rev_file s <> Holds r /\ B s.
Lemma K_J s : K s -> J s. Proof. intros [N H]. split; auto. intros E. contradiction. Qed.
Lemma settled_J s : settled w s -> J s.
Proof.
  intros [(R & Rc & D & F)|(r' & R & Rc & D & F)].
  - split; [rewrite R; discriminate|]. intros X. congruence.
  - split.
    + intros E. rewrite R in E. injection E as ->. repeat split; auto.
    + intros _. split; auto. intros p S. rewrite F. unfold target.
      destruct (in_dec Nat.eq_dec p (w_changed w r')) as [C|C]; [apply (SB r' r p S) in C|].
      * split; intros; eauto.
      * destruct (in_dec Nat.eq_dec p (w_orig w)); split; intros; try contradiction; eauto; congruence.
Qed.
(** The source tree as copied. *)
Definition fresh_src (s : state) : Prop := forall p, w_src w p = true -> file s p = if in_dec Nat.eq_dec p (w_orig w) then Some Orig else None.

Lemma dels_src ps : forall s, K s -> Forall (fun p => w_src w p = true) ps -> always K s (map DelFile ps).
Proof.
  induction ps as [|p ps IH]; intros s H F; [split; auto|]. inversion F as [|? ? S F']; subst. split; auto. apply IH; auto.
  destruct H as [N H]. split; auto. intros X. destruct (H X) as [D G]. split; auto. intros q Sq. cbn [apply1 file]. rewrite upd_ne by congruence. auto.
Qed.
Lemma put_src s p c : K s -> w_src w p = true -> K (apply1 s (Put p c)).
Proof.
  intros [N H] S. split; auto. intros X. destruct (H X) as [D G]. split; auto. intros q Sq. cbn [apply1 file]. rewrite upd_ne by congruence. auto.
Qed.
Lemma copy_src ps : forall s, K s -> Forall (fun p => w_src w p = true) ps -> always K s (copy_effects ps).
Proof.
  induction ps as [|p ps IH]; intros s H F; [split; auto|]. inversion F as [|? ? S F']; subst. cbn [copy_effects flat_map app].
  assert (H1 := put_src s p Torn H S). assert (H2 := put_src _ p Orig H1 S). split; [exact H|]. split; [exact H1|]. apply IH; auto.
Qed.
Lemma dels_file ps : forall s q, file (apply s (map DelFile ps)) q = if in_dec Nat.eq_dec q ps then None else file s q.
Proof.
  induction ps as [|p ps IH]; intros s q; [reflexivity|]. change (apply s (map DelFile (p :: ps))) with (apply (apply1 s (DelFile p)) (map DelFile ps)). rewrite IH.
  cbn [apply1 file]. destruct (in_dec Nat.eq_dec q ps) as [I|I], (in_dec Nat.eq_dec q (p :: ps)) as [I'|I']; auto.
  - exfalso. apply I'. now right.
  - destruct I' as [<-|I']; [apply upd_eq|contradiction].
  - apply upd_ne. intros ->. apply I'. now left.
Qed.
Lemma dels_rest ps : forall s, rev_file (apply s (map DelFile ps)) = rev_file s /\ record_file (apply s (map DelFile ps)) = record_file s /\ dir (apply s (map DelFile ps)) = dir s.
Proof. induction ps as [|p ps IH]; intros s; auto. apply (IH (apply1 s (DelFile p))). Qed.
Lemma copy_file ps : forall s q, file (apply s (copy_effects ps)) q = if in_dec Nat.eq_dec q ps then Some Orig else file s q.
Proof.
  induction ps as [|p ps IH]; intros s q; [reflexivity|].
  change (apply s (copy_effects (p :: ps))) with (apply (apply1 (apply1 s (Put p Torn)) (Put p Orig)) (copy_effects ps)). rewrite IH.
  cbn [apply1 file]. destruct (in_dec Nat.eq_dec q ps) as [I|I], (in_dec Nat.eq_dec q (p :: ps)) as [I'|I']; auto.
  - exfalso. apply I'. now right.
  - destruct I' as [<-|I']; [apply upd_eq|contradiction].
  - rewrite !upd_ne; auto; intros ->; apply I'; now left.
Qed.
Lemma copy_rest ps : forall s, rev_file (apply s (copy_effects ps)) = rev_file s /\ record_file (apply s (copy_effects ps)) = record_file s /\ dir (apply s (copy_effects ps)) = dir s.
Proof. induction ps as [|p ps IH]; intros s; auto. apply (IH (apply1 (apply1 s (Put p Torn)) (Put p Orig))). Qed.
(** While the record is gone nothing is promised. *)
Definition neutral (e : effect) : Prop := match e with PutRecord | PutRev _ => False | _ => True end.
Lemma off_record l : forall s, record_file s = false -> rev_file s <> Holds r -> Forall neutral l ->
  always K s l /\ record_file (apply s l) = false /\ rev_file (apply s l) <> Holds r.
Proof.
  induction l as [|e l IH]; intros s R N F; [split; [split; [split; [exact N|intros X; congruence]|exact I]|split; auto]|]. inversion F as [|? ? Ne F']; subst.
  assert (R' : record_file (apply1 s e) = false) by (destruct e; cbn in *; auto; contradiction).
  assert (N' : rev_file (apply1 s e) <> Holds r) by (destruct e; cbn in *; auto; try contradiction; discriminate).
  destruct (IH (apply1 s e) R' N' F') as (A & B' & C). split; [|split; auto]. split; auto. split; auto. intros X. congruence.
Qed.
Definition synced (s : state) : Prop := K s /\ record_file s = true /\ fresh_src s.

Lemma filter_src l : Forall (fun p => w_src w p = true) (filter (w_src w) l).
Proof. apply Forall_forall. intros p I. now apply filter_In in I. Qed.
Lemma sync_ok o s : visits w r s o -> K s -> always K s (sync_effects w o s) /\ synced (apply s (sync_effects w o s)).
Proof.
  intros (Vc & _ & Vr & _) H. unfold sync_effects.
  destruct ((match file s (w_go w) with Some _ => dir s | None => false end) && record_file s) eqn:E.
  - apply andb_prop in E as [_ E].
    assert (A1 : always K s (map DelFile (filter (w_src w) (remove_order o)))) by (apply dels_src; auto using filter_src).
    assert (A2 : always K (apply s (map DelFile (filter (w_src w) (remove_order o)))) (copy_effects (filter (w_src w) (copy_order o)))) by (apply copy_src; auto using filter_src; now apply always_end).
    assert (A := always_app _ _ _ _ A1 A2). split; auto. split; [now apply always_end|]. rewrite apply_app.
    destruct (copy_rest (filter (w_src w) (copy_order o)) (apply s (map DelFile (filter (w_src w) (remove_order o))))) as (_ & R & _).
    destruct (dels_rest (filter (w_src w) (remove_order o)) s) as (_ & R' & _). split; [congruence|].
    intros p S. rewrite copy_file, dels_file. destruct (in_dec Nat.eq_dec p (w_orig w)) as [I|I].
    + destruct (in_dec Nat.eq_dec p (filter (w_src w) (copy_order o))) as [J|J]; auto. exfalso. apply J. apply filter_In. split; auto. now apply Vc.
    + destruct (in_dec Nat.eq_dec p (filter (w_src w) (copy_order o))) as [J|J]; [apply filter_In in J as [J _]; apply Vc in J; contradiction|].
      destruct (in_dec Nat.eq_dec p (filter (w_src w) (remove_order o))) as [D|D]; auto. destruct (file s p) eqn:F; auto. exfalso. apply D. apply filter_In. split; auto. apply Vr. congruence.
  - clear E. set (l := map DelFile (remove_order o) ++ [DelDir; MkDir] ++ copy_effects (copy_order o)).
    assert (Q : [DelRecord] ++ map DelFile (remove_order o) ++ [DelDir; MkDir] ++ copy_effects (copy_order o) ++ [PutRecord] = ([DelRecord] ++ l) ++ [PutRecord]).
    { unfold l. rewrite <- !app_assoc. reflexivity. }
    rewrite Q. clear Q.
    assert (N : Forall neutral l).
    { unfold l. apply Forall_app. split; [|apply Forall_app; split].
      - apply Forall_forall. intros e I. apply in_map_iff in I as (p & <- & _). exact I.
      - repeat constructor.
      - apply Forall_forall. intros e I. apply in_flat_map in I as (p & _ & [<-|[<-|[]]]); exact I. }
    destruct H as [H1 H2].
    destruct (off_record l (apply1 s DelRecord) eq_refl H1 N) as (A & R & Rv).
    assert (A1 : always K s ([DelRecord] ++ l)) by (split; [split; auto|exact A]).
    assert (FF : forall p, file (apply s ([DelRecord] ++ l)) p = if in_dec Nat.eq_dec p (w_orig w) then Some Orig else None).
    { intros p. change (apply s ([DelRecord] ++ l)) with (apply (apply1 s DelRecord) l). unfold l. rewrite !apply_app, copy_file.
      destruct (in_dec Nat.eq_dec p (copy_order o)) as [I|I], (in_dec Nat.eq_dec p (w_orig w)) as [I'|I']; auto; try (apply Vc in I; contradiction); try (apply Vc in I'; contradiction).
      cbn [apply fold_left apply1 file]. change (fold_left apply1 ?l ?s) with (apply s l). rewrite dels_file. cbn [file].
      destruct (in_dec Nat.eq_dec p (remove_order o)) as [D|D]; auto. destruct (file s p) eqn:F; auto. exfalso. apply D, Vr. congruence. }
    assert (DD : dir (apply s ([DelRecord] ++ l)) = true).
    { change (apply s ([DelRecord] ++ l)) with (apply (apply1 s DelRecord) l). unfold l. rewrite !apply_app.
      destruct (copy_rest (copy_order o) (apply (apply (apply1 s DelRecord) (map DelFile (remove_order o))) [DelDir; MkDir])) as (_ & _ & ->). reflexivity. }
    set (s1 := apply s ([DelRecord] ++ l)) in *.
    assert (KE : K (apply1 s1 PutRecord)).
    { split; [exact Rv|]. intros _. split; [exact DD|]. intros p S. cbn [apply1 file]. rewrite FF. destruct (in_dec Nat.eq_dec p (w_orig w)); split; intros; try contradiction; eauto; congruence. }
    split.
    + apply always_app; auto. split; [now apply always_end|split; auto].
    + rewrite apply_app. split; [exact KE|split; [reflexivity|]]. intros p S. exact (FF p).
Qed.
(** After patching the files done. *)
Definition stage (done : list path) (s : state) : Prop :=
  K s /\ record_file s = true /\ (forall p, In p done -> file s p = Some (Pat r)) /\
  (forall p, w_src w p = true -> ~ In p done -> file s p = if in_dec Nat.eq_dec p (w_orig w) then Some Orig else None).
Lemma put_changed s p c : K s -> In p (w_changed w r) -> K (apply1 s (Put p c)).
Proof.
  intros [N H] C. split; auto. intros X. destruct (H X) as [D G]. split; auto. intros q Sq. cbn [apply1 file].
  destruct (Nat.eq_dec q p) as [->|Q]; [rewrite upd_eq; split; intros; eauto|]. rewrite upd_ne by auto. auto.
Qed.
Lemma patch_ok ps : forall s done, (forall p, In p ps -> In p (w_changed w r)) -> stage done s ->
  always K s (patch_effects w r ps s) /\ stage (done ++ ps) (apply s (patch_effects w r ps s)).
Proof.
  induction ps as [|p ps IH]; intros s done C H; [rewrite app_nil_r; split; auto; split; [apply H|auto]|].
  cbn [patch_effects]. set (c := patched w r p (file s p)). set (s2 := apply s [Put p Torn; Put p c]).
  destruct H as (HK & HR & HD & HS). assert (Cp : In p (w_changed w r)) by (apply C; now left).
  assert (K1 := put_changed s p Torn HK Cp). assert (K2 := put_changed _ p c K1 Cp).
  assert (Q : c = Pat r).
  { unfold c, patched. destruct (w_src w p) eqn:S; auto. destruct (in_dec Nat.eq_dec p done) as [I|I].
    - rewrite (HD p I). now rewrite Nat.eqb_refl.
    - rewrite (HS p S I). now destruct (in_dec Nat.eq_dec p (w_orig w)). }
  assert (St : stage (done ++ [p]) s2).
  { split; [exact K2|split; [exact HR|split]].
    - intros q I. cbn [s2 apply fold_left apply1 file]. destruct (Nat.eq_dec q p) as [->|N]; [rewrite upd_eq; now rewrite Q|]. rewrite !upd_ne by auto.
      apply in_app_or in I as [I|[I|[]]]; [auto|congruence].
    - intros q S I. cbn [s2 apply fold_left apply1 file]. assert (q <> p) by (intros ->; apply I; apply in_or_app; right; now left). rewrite !upd_ne by auto. apply HS; auto.
      intros J; apply I; apply in_or_app; now left. }
  destruct (IH s2 (done ++ [p])) as [A E]; [intros q I; apply C; now right|exact St|].
  split.
  - apply always_app; auto. split; auto. split; auto. split; auto.
  - rewrite apply_app. rewrite <- app_assoc in E. exact E.
Qed.
Lemma stage_complete o s : visits w r s o -> forall s', stage (patch_order o) s' -> complete w r s'.
Proof.
  intros (_ & Vp & _) s' ((N & H) & R & D & S). destruct (H R) as [Dr G]. split; auto. intros p. unfold target.
  destruct (in_dec Nat.eq_dec p (w_changed w r)) as [C|C]; [apply D, Vp, C|]. assert (NP : ~ In p (patch_order o)) by (rewrite Vp; auto).
  destruct (w_src w p) eqn:E; [now apply S|]. destruct (G p E) as [G1 G2]. destruct (in_dec Nat.eq_dec p (w_orig w)) as [I|I].
  - destruct (G1 I) as (c & F & [-> |X]); [auto|contradiction].
  - destruct (file s' p) eqn:F; auto. exfalso. apply C, G2; auto. discriminate.
Qed.
(** After the old copy is gone: the whole of the rest. *)
Lemma rest_ok o s : visits w r s o -> K s ->
  let e1 := sync_effects w o s in let e2 := patch_effects w r (patch_order o) (apply s e1) in
  let l := e1 ++ e2 ++ [PutRev Empty; PutRev (Holds r)] in
  always J s l /\ rev_file (apply s l) = Holds r /\ record_file (apply s l) = true /\ complete w r (apply s l).
Proof.
  intros V H. cbv zeta. destruct (sync_ok o s V H) as (A1 & Y). set (e1 := sync_effects w o s) in *. set (s1 := apply s e1) in *.
  destruct Y as (YK & YR & YS). assert (St : stage [] s1) by (split; auto; split; auto; split; [intros p []|intros p S _; now apply YS]).
  destruct (patch_ok (patch_order o) s1 []) as [A2 E2]; [intros p I; now apply V|exact St|]. cbn [app] in E2.
  set (e2 := patch_effects w r (patch_order o) s1) in *. set (s2 := apply s1 e2) in *.
  assert (C := stage_complete o s V s2 E2). destruct E2 as ((N2 & B2) & R2 & _).
  set (s3 := apply s2 [PutRev Empty; PutRev (Holds r)]).
  assert (C3 : complete w r s3) by exact C.
  assert (J3 : J s3) by (split; [intros _; split; [exact C3|exact R2]|exact B2]).
  assert (Ap : apply s (e1 ++ e2 ++ [PutRev Empty; PutRev (Holds r)]) = s3) by (rewrite !apply_app; reflexivity).
  rewrite Ap. split; [|split; [reflexivity|split; [exact R2|exact C3]]].
  apply always_app; [eapply always_impl; [exact K_J|exact A1]|]. apply always_app; [eapply always_impl; [exact K_J|exact A2]|].
  fold s1. fold s2. split; [apply K_J; split; auto|]. split; [apply K_J; split; [discriminate|exact B2]|]. split; [exact J3|exact I].
Qed.
Lemma reset_fresh o s : visits w r s o -> fresh (apply s (reset_order o)).
Proof.
  intros (_ & _ & _ & Del & R & Rc & D & F).
  assert (G : forall l s, (forall e, In e l -> deletion e) ->
    (rev_file (apply s l) = if existsb (fun e => match e with DelRev => true | _ => false end) l then Absent else rev_file s) /\
    (record_file (apply s l) = if existsb (fun e => match e with DelRecord => true | _ => false end) l then false else record_file s) /\
    (dir (apply s l) = if existsb (fun e => match e with DelDir => true | _ => false end) l then false else dir s) /\
    (forall p, file (apply s l) p = if existsb (fun e => match e with DelFile q => p =? q | _ => false end) l then None else file s p)).
  { clear. induction l as [|e l IH]; intros s H; [repeat split; auto|].
    assert (He : deletion e) by (apply H; now left). destruct (IH (apply1 s e)) as (A & B & C & E); [intros x I; apply H; now right|].
    change (apply s (e :: l)) with (apply (apply1 s e) l). rewrite A, B, C.
    destruct e; try contradiction; cbn [existsb orb apply1 rev_file record_file dir file] in *; clear IH A B C H;
      (split; [|split; [|split; [|intros q; rewrite E; clear E]]]); auto; unfold upd;
      try match goal with |- context [existsb ?f l] => destruct (existsb f l) end; auto; destruct (q =? p); auto. }
  destruct (G (reset_order o) s Del) as (A & B & C & E).
  assert (Ex : forall (f : effect -> bool) e, In e (reset_order o) -> f e = true -> existsb f (reset_order o) = true) by (intros f e I Q; apply existsb_exists; eauto).
  split; [rewrite A, (Ex _ DelRev) by (assumption || reflexivity); reflexivity|]. split; [rewrite B, (Ex _ DelRecord) by (assumption || reflexivity); reflexivity|]. split; [rewrite C, (Ex _ DelDir) by (assumption || reflexivity); reflexivity|].
  intros p. rewrite E. match goal with |- (if ?b then _ else _) = _ => destruct b eqn:X end; auto. destruct (file s p) eqn:Q; auto.
  rewrite (Ex _ (DelFile p)) in X; [discriminate X|apply F; congruence|apply Nat.eqb_refl].
Qed.
Lemma fresh_K s : fresh s -> K s.
Proof. intros (R & Rc & _). split; [rewrite R; discriminate|]. intros X. congruence. Qed.
Lemma fresh_visits s o s1 : visits w r s o -> fresh s1 -> visits w r s1 o.
Proof. intros (A & B & C & D & E & F & G & H) (_ & _ & _ & N). repeat split; auto; try apply A; try apply B; intros p Q; exfalso; apply Q, N. Qed.
Lemma nothing_to_do s : J s -> revision_changed r s || negb (dir s) = false <-> rev_file s = Holds r.
Proof.
  intros [H _]. unfold revision_changed. split.
  - destruct (rev_file s) as [| |r']; try discriminate. intros E. apply orb_false_elim in E as [E _]. apply negb_false_iff, Nat.eqb_eq in E. now subst.
  - intros E. destruct (H E) as [[D _] _]. now rewrite E, D, Nat.eqb_refl.
Qed.
Lemma run_ok o reset s : visits w r s o -> J s ->
  let l := setup_effects w o r reset s in
  (forall k, (reset = true -> length (reset_order o) <= k) -> J (apply s (firstn k l))) /\
  rev_file (apply s l) = Holds r /\ record_file (apply s l) = true /\ complete w r (apply s l).
Proof.
  intros V H. cbv zeta. unfold setup_effects. destruct reset; cbn [orb].
  - assert (F := reset_fresh o s V). destruct (rest_ok o _ (fresh_visits s o _ V F) (fresh_K _ F)) as (A & E).
    cbv zeta in A, E. set (s1 := apply s (reset_order o)) in *.
    match goal with |- context [reset_order o ++ ?x] => set (l := x) in * end. rewrite apply_app. fold s1. split; [|exact E].
    intros k L. specialize (L eq_refl). rewrite firstn_app, firstn_all2 by auto. rewrite apply_app. now apply always_firstn.
  - destruct (revision_changed r s || negb (dir s)) eqn:Q.
    + cbn [apply fold_left app]. change (fold_left apply1 ?l s) with (apply s l).
      assert (N : rev_file s <> Holds r) by (intros X; apply nothing_to_do in X; auto; congruence).
      destruct (rest_ok o s V (conj N (proj2 H))) as (A & E). split; [|exact E]. intros k _. now apply always_firstn.
    + apply nothing_to_do in Q; auto. split; [intros k _; now destruct k|]. destruct H as [H _]. destruct (H Q) as [C R]. auto.
Qed.
Lemma attempts_J s s' : J s -> attempts w r s s' -> J s'.
Proof. intros H A. induction A as [s|s o reset k s' V L A IH]; auto. apply IH. now apply run_ok. Qed.
End S.

(** However often setting up a revision crashed, and wherever, a run that ends leaves a
    complete copy for it, and its name. *)
Theorem C66_setup_partial :
  forall w r s s1 o reset, same_binaries w -> settled w s -> attempts w r s s1 -> visits w r s1 o ->
    let s2 := apply s1 (setup_effects w o r reset s1) in
    rev_file s2 = Holds r /\ record_file s2 = true /\ complete w r s2.
Proof.
  intros w r s s1 o reset SB St A V. cbv zeta. assert (H := attempts_J w r s s1 (settled_J w r SB s St) A). now apply (run_ok w r o reset s1 V H).
Qed.
Print Assumptions C66_setup_partial.
(** So over any history in which every revision is retried until it ends. *)
Inductive history (w : world) : state -> list revision -> state -> Prop :=
| h_nil s : history w s [] s
| h_episode s s1 o r reset rs s' : attempts w r s s1 -> visits w r s1 o ->
    history w (apply s1 (setup_effects w o r reset s1)) rs s' -> history w s (r :: rs) s'.
Theorem C66_history :
  forall w s rs s', same_binaries w -> settled w s -> history w s rs s' ->
    settled w s' /\ forall r before, rs = before ++ [r] -> rev_file s' = Holds r /\ complete w r s'.
Proof.
  intros w s rs s' SB St H. induction H as [s|s s1 o r reset rs s' A V H IH]; [split; auto; intros r [|] E; discriminate E|].
  destruct (C66_setup_partial w r s s1 o reset SB St A V) as (R & Rc & C). destruct IH as [S L]; [right; eauto|]. split; auto.
  intros r' [|b before] E.
  - injection E as <- ->. inversion H; subst. auto.
  - injection E as <- ->. now apply (L r' before).
Qed.
Print Assumptions C66_history.
(** A run that finds its own complete copy changes nothing. *)
Theorem C66_nothing_to_do :
  forall w r s o, rev_file s = Holds r -> complete w r s -> setup_effects w o r false s = [].
Proof. intros w r s o R [D _]. unfold setup_effects, revision_changed. now rewrite R, D, Nat.eqb_refl. Qed.
Print Assumptions C66_nothing_to_do.

(** ** A small GOROOT: 0 is bin/go, 1 the standard library's archive, 2 and 3 are sources;
    xgo rebuilds go, edits 2, and adds the source 10 + r. *)
Definition small : world :=
  {| w_orig := [0; 1; 2; 3]; w_src := fun p => 2 <=? p; w_go := 0; w_changed := fun r => [2; 10 + r; 0] |}.
Definition at_rest (r : revision) : state :=
  {| rev_file := Holds r; record_file := true; dir := true; file := target small r |}.
Definition small_orders (r : revision) (reset : list effect) : orders :=
  {| reset_order := reset; remove_order := [0; 1; 2; 3; 10; 11; 12]; copy_order := [0; 1; 2; 3]; patch_order := [2; 10 + r; 0] |}.
Definition wipe : list effect := [DelFile 1; DelFile 0; DelFile 2; DelFile 3; DelFile 10; DelFile 11; DelFile 12; DelDir; DelRecord; DelRev].
Lemma small_settled r : settled small (at_rest r).
Proof. right. exists r. repeat split. Qed.
Lemma small_target_le r p : r <= 2 -> target small r p <> None -> In p [0; 1; 2; 3; 10; 11; 12].
Proof.
  intros L. unfold target. destruct (in_dec Nat.eq_dec p (w_changed small r)) as [I|I].
  - intros _. cbn [small w_changed In] in I. destruct I as [<-|[<-|[<-|[]]]]; [cbn; auto| |cbn; auto]. assert (r = 0 \/ r = 1 \/ r = 2) as [-> |[-> | ->]] by lia; cbn; auto 9.
  - destruct (in_dec Nat.eq_dec p (w_orig small)) as [J|J]; [|congruence]. intros _. cbn [small w_orig In] in J. destruct J as [<-|[<-|[<-|[<-|[]]]]]; cbn; auto 9.
Qed.
Lemma small_visits r r' s : r <= 2 -> (forall p, file s p <> None -> In p [0; 1; 2; 3; 10; 11; 12]) -> visits small r' s (small_orders r' wipe).
Proof.
  intros L F. repeat split; auto; cbn; try tauto; auto 12.
  - intros e I. repeat (destruct I as [<-|I]; [exact Logic.I|]). destruct I.
  - intros p Q. specialize (F p Q). cbn in F. repeat (destruct F as [<-|F]; [auto 12|]). destruct F.
Qed.
Example C66_example : same_binaries small /\ exists s1, attempts small 1 (at_rest 0) s1 /\ s1 <> at_rest 0 /\ visits small 1 s1 (small_orders 1 wipe).
Proof.
  split.
  - intros r r' p S I. cbn [small w_changed w_src In] in *. apply Nat.leb_gt in S. destruct I as [<-|[<-|[<-|[]]]]; auto; lia.
  - set (s1 := apply (at_rest 0) (firstn 8 (setup_effects small (small_orders 1 wipe) 1 false (at_rest 0)))).
    exists s1. assert (V0 : forall p, file (at_rest 0) p <> None -> In p [0; 1; 2; 3; 10; 11; 12]) by (intros p; apply small_target_le; lia).
    split; [|split].
    + eapply (at_crash _ _ _ (small_orders 1 wipe) false 8); [apply (small_visits 0); auto; lia|discriminate|]. constructor.
    + intros E. apply (f_equal (fun s => file s 3)) in E. vm_compute in E. discriminate E.
    + apply (small_visits 0); [lia|]. intros p Q. destruct (in_dec Nat.eq_dec p [0; 1; 2; 3; 10; 11; 12]) as [I|I]; auto. exfalso. apply Q.
      cbn in I. assert (P : forall q, In q [0; 1; 2; 3; 10; 11; 12] -> (p =? q) = false) by (intros q J; apply Nat.eqb_neq; intros ->; apply I; cbn in J; tauto).
      unfold s1. assert (X : forall l s, (forall e, In e l -> match e with Put q _ => In q [0; 1; 2; 3; 10; 11; 12] | _ => True end) -> file s p = None -> file (apply s l) p = None).
      { clear Q. induction l as [|e l IH]; intros s H H0; auto. change (apply s (e :: l)) with (apply (apply1 s e) l). apply IH; [intros e' I'; apply H; now right|].
        assert (He := H e (or_introl eq_refl)). destruct e; cbn [apply1 file]; auto; unfold upd; [destruct (p =? p0); auto|now rewrite P]. }
      apply X; [|destruct (file (at_rest 0) p) eqn:T; auto; exfalso; apply I, V0; congruence].
      intros e J. vm_compute in J. repeat (destruct J as [<-|J]; [vm_compute; tauto|]). destruct J.
Qed.
(** The general claim fails: a crash while --reset-instrument removes the old copy leaves the
    name of the revision beside half a copy, and the next run takes it. *)
Theorem C66_reset_crash_refuted :
  ~ (forall w r s o k o', same_binaries w -> settled w s -> visits w r s o ->
      let s1 := apply s (firstn k (setup_effects w o r true s)) in visits w r s1 o' ->
      complete w r (apply s1 (setup_effects w o' r false s1))).
Proof.
  intros H. specialize (H small 1 (at_rest 1) (small_orders 1 wipe) 1 (small_orders 1 wipe) (proj1 C66_example) (small_settled 1)).
  assert (V : visits small 1 (at_rest 1) (small_orders 1 wipe)) by (apply (small_visits 1); [lia|]; intros p; apply small_target_le; lia).
  specialize (H V). cbv zeta in H. destruct H as [_ H].
  - apply (small_visits 1); [lia|]. intros p Q. apply (small_target_le 1); [lia|]. intros T. apply Q. cbn -[target upd]. unfold upd. destruct (p =? 1); auto.
  - specialize (H 1). vm_compute in H. discriminate H.
Qed.
Print Assumptions C66_reset_crash_refuted.
(** So does a crash while a copy that someone deleted is made again. *)
Theorem C66_deleted_copy_refuted :
  ~ (forall w r s o k o', same_binaries w -> rev_file s = Holds r -> dir s = false -> (forall p, file s p = None) -> visits w r s o ->
      let s1 := apply s (firstn k (setup_effects w o r false s)) in visits w r s1 o' ->
      complete w r (apply s1 (setup_effects w o' r false s1))).
Proof.
  intros H. set (s := {| rev_file := Holds 1; record_file := true; dir := false; file := fun _ => None |}).
  specialize (H small 1 s (small_orders 1 wipe) 10 (small_orders 1 wipe) (proj1 C66_example) eq_refl eq_refl (fun _ => eq_refl)).
  assert (V : forall s', (forall p, file s' p = None) -> visits small 1 s' (small_orders 1 wipe)) by (intros s' F; apply (small_visits 1); [lia|]; intros p Q; now rewrite F in Q).
  specialize (H (V s (fun _ => eq_refl))). cbv zeta in H. destruct H as [_ H].
  - apply V. intros p. cbn -[upd]. unfold upd. repeat (destruct (p =? _); [reflexivity|]). reflexivity.
  - specialize (H 1). vm_compute in H. discriminate H.
Qed.
Print Assumptions C66_deleted_copy_refuted.
(** And going back to the old xgo after an upgrade crashed. *)
Theorem C66_downgrade_refuted :
  ~ (forall w r r' s o k o', same_binaries w -> settled w s -> visits w r' s o ->
      let s1 := apply s (firstn k (setup_effects w o r' false s)) in visits w r s1 o' ->
      complete w r (apply s1 (setup_effects w o' r false s1))).
Proof.
  intros H. specialize (H small 0 1 (at_rest 0) (small_orders 1 wipe) 1 (small_orders 0 wipe) (proj1 C66_example) (small_settled 0)).
  assert (V : visits small 1 (at_rest 0) (small_orders 1 wipe)) by (apply (small_visits 0); [lia|]; intros p; apply small_target_le; lia).
  specialize (H V). cbv zeta in H. destruct H as [_ H].
  - apply (small_visits 0); [lia|]. intros p Q. apply (small_target_le 0); [lia|]. intros T. apply Q. change (upd (file (at_rest 0)) 2 None p = None). unfold upd. destruct (p =? 2); auto.
  - specialize (H 2). vm_compute in H. discriminate H.
Qed.
Print Assumptions C66_downgrade_refuted.
