(** * The repair of old runtimes (C106) *)
From Coq Require Import Ascii String List Arith Bool Lia.
From Verif Require Import M_Str P_Str M_Coverage M_Link.
Import ListNotations.
Open Scope nat_scope.
Open Scope list_scope.

(** ** Specification: [s'] is [s] with each occurrence of [old], from left to right and
    without overlaps, replaced by [new]. *)
Inductive replaced (old new : bytes) : bytes -> bytes -> Prop :=
| r_none s : ~ occurs old s -> replaced old new s s
| r_some a b b' : (forall x y, a ++ old ++ b = x ++ old ++ y -> length a <= length x) -> replaced old new b b' ->
    replaced old new (a ++ old ++ b) (a ++ new ++ b').

Lemma occurs_split w x y : occurs w (x ++ y) ->
  occurs w x \/ occurs w y \/ exists u v, w = u ++ v /\ u <> [] /\ v <> [] /\ (exists x', x = x' ++ u) /\ exists y', y = v ++ y'.
Proof.
  intros (a & b & E). destruct (le_lt_dec (length x) (length a)) as [L|L].
  - right. left. apply app_cut in E as (z & _ & E2); auto. rewrite E2. now exists z, b.
  - destruct (le_lt_dec (length a + length w) (length x)) as [L2|L2].
    + left. rewrite app_assoc in E. symmetry in E. apply app_cut in E as (z & E1 & _); [|rewrite app_length; lia]. rewrite E1. exists a, z. now rewrite <- app_assoc.
    + right. right. symmetry in E. apply app_cut in E as (u & E1 & E2); [|lia]. symmetry in E2. assert (Lu : length u = length x - length a) by (subst x; rewrite app_length; lia).
      apply app_cut in E2 as (v & E3 & E4); [|lia]. exists u, v. repeat split; auto.
      * intros ->. cbn in Lu. lia.
      * intros ->. rewrite app_nil_r in E3. subst. lia.
      * now exists a.
      * now exists b.
Qed.
Definition overlaps_right (old new : bytes) : bool := existsb (fun k => has_prefix new (skipn k old)) (seq 1 (length old - 1)).
Definition overlaps_left (old new : bytes) : bool := existsb (fun k => has_suffix new (firstn k old)) (seq 1 (length old - 1)).
Section Rep.
  Variables old new : bytes.
  Hypothesis onil : old <> [].
  Hypothesis no_r : overlaps_right old new = false.
  Hypothesis no_l : overlaps_left old new = false.
  Hypothesis no_in : ~ occurs old new.
  Hypothesis longer : length old <= length new.
  Lemma no_suffix u v w : old = u ++ v -> u <> [] -> v <> [] -> new <> v ++ w.
  Proof.
    intros E U V N. assert (X : overlaps_right old new = true); [|congruence]. apply existsb_exists. exists (length u). split.
    - apply in_seq. assert (length old = length u + length v) by (rewrite E; apply app_length). destruct u, v; cbn in *; try congruence; lia.
    - rewrite E, skipn_app_exact by reflexivity. rewrite N. apply has_prefix_app.
  Qed.
  Lemma no_prefix u v w : old = u ++ v -> u <> [] -> v <> [] -> new <> w ++ u.
  Proof.
    intros E U V N. assert (X : overlaps_left old new = true); [|congruence]. apply existsb_exists. exists (length u). split.
    - apply in_seq. assert (length old = length u + length v) by (rewrite E; apply app_length). destruct u, v; cbn in *; try congruence; lia.
    - rewrite E, firstn_app_exact by reflexivity. apply has_suffix_iff. now exists w.
  Qed.
  (** [d] is what is done: empty or ending in [new] *)
  Definition settled (d : bytes) : Prop := ~ occurs old d /\ (d = [] \/ exists d', d = d' ++ new).
  Lemma suffix_of_suffix (d new' u x : bytes) : d ++ new' = x ++ u -> length u <= length new' -> exists w, new' = w ++ u.
  Proof.
    intros E L. assert (length d <= length x) by (apply (f_equal (@length _)) in E; rewrite !app_length in E; lia).
    apply app_cut in E as (w & _ & E); auto. now exists w.
  Qed.
  Lemma settled_occurs d s : settled d -> occurs old (d ++ s) -> occurs old s.
  Proof.
    intros [N E] O. apply occurs_split in O as [O|[O|(u & v & W & U & V & (x & X) & _)]]; auto; [contradiction|].
    exfalso. destruct E as [-> |(d' & ->)]; [destruct x; [cbn in X; congruence|discriminate]|].
    apply suffix_of_suffix in X as [w X]; [|assert (length old = length u + length v) by (rewrite W; apply app_length); lia].
    now apply (no_prefix u v w).
  Qed.
  Lemma settled_more d a : settled d -> ~ occurs old a -> settled (d ++ a ++ new).
  Proof.
    intros S N. split; [|right; exists (d ++ a); now rewrite app_assoc].
    intros O. apply settled_occurs in O; auto. apply occurs_split in O as [O|[O|(u & v & W & U & V & _ & (y & Y))]]; auto.
    now apply (no_suffix u v y).
  Qed.
  Lemma settled_index d s : settled d -> index (d ++ s) old = option_map (fun k => length d + k) (index s old).
  Proof.
    intros S. destruct (index s old) as [k|] eqn:I; cbn [option_map].
    - pose proof (index_first _ _ _ I) as F. apply index_sound in I as (a & b & E & L). subst k s. replace (length d + length a) with (length (d ++ a)) by (now rewrite app_length).
      apply (index_least _ old (d ++ a) b); [rewrite <- (app_assoc d a (old ++ b)); reflexivity|]. intros a' b' E'. rewrite app_length.
      destruct (le_lt_dec (length d) (length a')) as [L|L].
      + symmetry in E'. symmetry in E'. apply app_cut in E' as (y & -> & Y); auto. specialize (F y b' Y). rewrite app_length. lia.
      + exfalso. (* an occurrence that begins in d *)
        destruct S as [N E]. rewrite (app_assoc a' old b') in E'. destruct (le_lt_dec (length a' + length old) (length d)) as [L2|L2].
        * symmetry in E'. apply app_cut in E' as (y & Y & _); [|rewrite app_length; lia]. apply N. rewrite Y. exists a', y. now rewrite <- app_assoc.
        * rewrite <- (app_assoc a' old b') in E'. symmetry in E'. apply app_cut in E' as (u & E1 & E2); [|lia].
          assert (Lu : length u = length d - length a') by (rewrite E1, app_length; lia).
          symmetry in E2. apply app_cut in E2 as (v & E3 & E4); [|lia].
          assert (U : u <> []) by (intros ->; cbn in Lu; lia). assert (V : v <> []) by (intros ->; rewrite app_nil_r in E3; subst; lia).
          destruct E as [-> |(d' & ->)]; [cbn in L; lia|].
          apply suffix_of_suffix in E1 as [w X]; [|assert (length old = length u + length v) by (rewrite E3; apply app_length); lia].
          now apply (no_prefix u v w).
    - apply index_none_iff. intros O. apply settled_occurs in O; auto. apply index_none_iff in I. auto.
  Qed.
End Rep.
Lemma first_stays pre anchor z z' : index (pre ++ anchor ++ z) anchor = Some (length pre) -> index (pre ++ anchor ++ z') anchor = Some (length pre).
Proof.
  intros I. apply (index_least _ anchor pre z'); auto. intros x y E. destruct (le_lt_dec (length pre) (length x)) as [L|L]; auto.
  exfalso. rewrite (app_assoc pre), (app_assoc x) in E. symmetry in E. apply app_cut in E as (w & W & _); [|rewrite !app_length; lia].
  pose proof (index_first _ _ _ I x (w ++ z)) as F. rewrite app_assoc, W, <- !app_assoc in F. specialize (F eq_refl). lia.
Qed.
Lemma fc_r : overlaps_right oldBuggyCheck fixedCheck = false. Proof. reflexivity. Qed.
Lemma fc_l : overlaps_left oldBuggyCheck fixedCheck = false. Proof. reflexivity. Qed.
Lemma fc_in : ~ occurs oldBuggyCheck fixedCheck. Proof. apply index_none_iff. reflexivity. Qed.
Lemma fc_len : length oldBuggyCheck <= length fixedCheck. Proof. cbn. lia. Qed.
Lemma loop pre : forall m rest done, length rest <= m -> index (pre ++ recvAnchor ++ []) recvAnchor = Some (length pre) -> settled oldBuggyCheck fixedCheck done ->
  exists rest', replaced oldBuggyCheck fixedCheck rest rest' /\ ~ occurs oldBuggyCheck (done ++ rest') /\ fix_loop (pre ++ recvAnchor ++ done ++ rest) (pre ++ recvAnchor ++ done ++ rest').
Proof.
  assert (NE : oldBuggyCheck <> []) by discriminate.
  induction m as [|m IH]; intros rest done L I S.
  all: pose proof (settled_index _ _ NE fc_r fc_l fc_in fc_len done rest S) as X.
  all: assert (R : replaceContentAfter (pre ++ recvAnchor ++ done ++ rest) recvAnchor oldBuggyCheck fixedCheck
     = match index rest oldBuggyCheck with None => None | Some k => Some (pre ++ recvAnchor ++ done ++ firstn k rest ++ fixedCheck ++ skipn (k + length oldBuggyCheck) rest) end)
  by (unfold replaceContentAfter; rewrite (first_stays _ _ [] (done ++ rest) I);
      replace (skipn (length pre + length recvAnchor) (pre ++ recvAnchor ++ done ++ rest)) with (done ++ rest) by (rewrite app_assoc, skipn_app_exact by (now rewrite app_length); reflexivity);
      rewrite X; destruct (index rest oldBuggyCheck) as [k|]; cbn [option_map]; [|reflexivity]; f_equal;
      replace (length pre + length recvAnchor + (length done + k)) with (length ((pre ++ recvAnchor) ++ done) + k) by (rewrite !app_length; lia);
      replace (pre ++ recvAnchor ++ done ++ rest) with (((pre ++ recvAnchor) ++ done) ++ rest) by (now rewrite <- !app_assoc);
      rewrite firstn_app_2, <- Nat.add_assoc; rewrite skipn_app;
      replace (length ((pre ++ recvAnchor) ++ done) + (k + length oldBuggyCheck) - length ((pre ++ recvAnchor) ++ done)) with (k + length oldBuggyCheck) by lia;
      rewrite skipn_all2 by lia; rewrite <- !app_assoc; reflexivity).
  all: destruct (index rest oldBuggyCheck) as [k|] eqn:K.
  1: { exfalso. apply index_sound in K as (a & b & E & _). apply (f_equal (@length _)) in E. rewrite !app_length in E. cbn in E. lia. }
  2: { pose proof (index_first _ _ _ K) as F. pose proof K as K'. apply index_sound in K as (a & b & E & La). subst k rest.
       rewrite firstn_app_exact in R by reflexivity. rewrite (app_assoc a), skipn_app_exact in R by now rewrite app_length. 
       assert (Na : ~ occurs oldBuggyCheck a).
       { intros (x & y & Exy). specialize (F x (y ++ oldBuggyCheck ++ b)). rewrite Exy in F at 1. rewrite <- !app_assoc in F. specialize (F eq_refl).
         apply (f_equal (@length _)) in Exy. rewrite !app_length in Exy. cbn in Exy. lia. }
       assert (S' : settled oldBuggyCheck fixedCheck (done ++ a ++ fixedCheck)) by (apply settled_more; auto using fc_r, fc_l, fc_in, fc_len).
       destruct (IH b (done ++ a ++ fixedCheck)) as (b' & Rb & Nb & Lb); auto; [rewrite !app_length in L; cbn in L; lia|].
       exists (a ++ fixedCheck ++ b'). split; [constructor; auto|]. split.
       - rewrite <- !app_assoc in Nb. exact Nb.
       - eapply fix_more.
         + rewrite <- (app_assoc a) in R. exact R.
         + rewrite <- !app_assoc in Lb. rewrite <- ?app_assoc. exact Lb. }
  all: exists rest; split; [constructor; now apply index_none_iff|]; split; [|constructor; exact R].
  all: apply index_none_iff in K; intros O; apply K; eapply settled_occurs; eauto using fc_l, fc_len.
Qed.
(** The repair ends for every file. Without the anchor nothing is changed; else every wrong
    check after the anchor is replaced, and nothing else. *)
Theorem C106_repair (content : bytes) : exists r, fix_loop content r
  /\ (~ occurs recvAnchor content -> r = content)
  /\ (forall pre post, content = pre ++ recvAnchor ++ post -> (forall x y, content = x ++ recvAnchor ++ y -> length pre <= length x) ->
      exists post', replaced oldBuggyCheck fixedCheck post post' /\ r = pre ++ recvAnchor ++ post' /\ ~ occurs oldBuggyCheck post')
  /\ fix_loop r r.
Proof.
  destruct (index content recvAnchor) as [i|] eqn:I.
  - pose proof (index_first _ _ _ I) as F. pose proof (index_sound _ _ _ I) as (pre & post & E & L). subst i.
    assert (I0 : index (pre ++ recvAnchor ++ []) recvAnchor = Some (length pre)) by (rewrite E in I; eapply first_stays; exact I).
    destruct (loop pre (length post) post [] (le_n _) I0) as (post' & R & N & Lo).
    { split; [apply occurs_nil_left; discriminate|now left]. }
    cbn [app] in Lo, N. rewrite <- E in Lo. exists (pre ++ recvAnchor ++ post'). split; [exact Lo|split; [|split]].
    + intros O. exfalso. apply O. now exists pre, post.
    + intros pre2 post2 E2 F2. assert (length pre = length pre2) as Lp by (pose proof (F pre2 post2 E2); pose proof (F2 pre post E); lia).
      rewrite E in E2. assert (pre = pre2 /\ post = post2) as [<- <-].
      { apply app_cut in E2 as (z & Z1 & Z2); [|lia]. destruct z; [|rewrite Z1, app_length in Lp; cbn in Lp; lia]. rewrite app_nil_r in Z1.
        split; [congruence|]. cbn [app] in Z2. now apply app_inv_head in Z2. }
      exists post'. auto.
    + apply fix_done. unfold replaceContentAfter. rewrite (first_stays _ _ [] post' I0).
      rewrite app_assoc, skipn_app_exact by now rewrite app_length. apply index_none_iff in N. now rewrite N.
  - exists content. assert (D : fix_loop content content) by (apply fix_done; unfold replaceContentAfter; now rewrite I).
    split; [exact D|split; [reflexivity|split; [|exact D]]]. intros pre post E. exfalso. apply index_none_iff in I. apply I. now exists pre, post.
Qed.
(** and it can end in one way only. *)
Theorem C106_repair_unique (content r r' : bytes) : fix_loop content r -> fix_loop content r' -> r = r'.
Proof. intros A. revert r'. induction A as [c N|c c' r N A IH]; intros r' B; inversion B; subst; try congruence. apply IH. congruence. Qed.
Example C106_nontrivial : let s := #"if actRecvPtr != nil { var resObject object; if actRecvPtr != nil {} if actRecvPtr != nil {}" in
  fix_loop s (#"if actRecvPtr != nil { var resObject object; if recvPtr == nil && actRecvPtr != nil {} if recvPtr == nil && actRecvPtr != nil {}").
Proof. cbv zeta. eapply fix_more; [reflexivity|]. eapply fix_more; [reflexivity|]. apply fix_done. reflexivity. Qed.
