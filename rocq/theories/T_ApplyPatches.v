(** * Applying a patch directory to a GOROOT (C90) *)
From Coq Require Import Ascii String List Arith Bool Lia Permutation Sorted.
From Verif Require Import M_Str M_Version T_Version M_Patch M_PatchFile M_ApplyPatches T_PatchFile.
Import ListNotations.
Open Scope nat_scope. Open Scope list_scope.

(** ** Specification *)
(** The files of a patch directory: each once, all names non-empty. *)
Definition dir_ok (dir : list file) : Prop := NoDup (map fst dir) /\ forall p c, In (p, c) dir -> p <> [] /\ Forall (fun n => n <> []) p.
(** Files to be copied, and patches for a file. *)
Definition plain (dir : list file) (p : path) (c : bytes) : Prop :=
  In (p, c) dir /\ last p [] <> #"__config__.json" /\ forall r, last p [] <> r ++ #".xgo.patch".
Definition patch_of (p : path) : path := removelast p ++ [last p [] ++ #".xgo.patch"].
Definition patch_for (dir : list file) (p : path) (pc : bytes) : Prop := In (patch_of p, pc) dir.
(** What a file is before it is patched: the file of the directory if there is one, else the file that was there. *)
Definition before (dir : list file) (g : fs) (p : path) (v : option bytes) : Prop :=
  (exists c, plain dir p c /\ v = Some c) \/ ((forall c, ~ plain dir p c) /\ v = g p).
(** What it is in the end. *)
Definition expected (A : ast) (dir : list file) (g : fs) (p : path) (v : option bytes) : Prop :=
  exists b, before dir g p b /\
  (((forall pc, ~ patch_for dir p pc) /\ v = b) \/
   exists pc c r, patch_for dir p pc /\ b = Some c /\ patch_content A c pc = Some r /\ v = Some r).
(** A patch for a file is in order: there is such a file, and the patch can be read and applied to it. *)
Definition patches_fit (A : ast) (dir : list file) (g : fs) : Prop :=
  (forall p c, In (p, c) dir -> last p [] <> #".xgo.patch") /\
  forall p pc, last p [] <> [] -> patch_for dir p pc -> exists c r, before dir g p (Some c) /\ patch_content A c pc = Some r.
(** Patching a patched file again gives the same file (C32). *)
Definition stable (A : ast) (dir : list file) (g : fs) : Prop :=
  forall p pc c r, patch_for dir p pc -> (forall x, ~ plain dir p x) -> g p = Some c -> patch_content A c pc = Some r -> patch_content A r pc = Some r.

(** ** Order *)
Lemma eqp_eq a b : eqp a b = true <-> a = b.
Proof.
  revert b. induction a as [|x a IH]; intros [|y b]; cbn; split; intros H; try discriminate; auto.
  - apply andb_true_iff in H as [H1 H2]. apply eqs_eq in H1. apply IH in H2. congruence.
  - injection H as -> ->. rewrite eqs_refl. now apply IH.
Qed.
Lemma path_cmp_list x y : path_cmp x y = cmp_list str_cmp x y.
Proof. revert y. induction x as [|a x IH]; intros [|b y]; simpl; auto. rewrite IH. unfold lex. now destruct (str_cmp a b). Qed.
Lemma path_order : total_order path_cmp.
Proof. apply (order_ext _ _ path_cmp_list). apply list_order, str_order. Qed.
Definition sorted (l : list file) : Prop := StronglySorted (fun a b => path_cmp (fst a) (fst b) = Lt) l.
Lemma insert_file_perm f l : Permutation (insert_file f l) (f :: l).
Proof. induction l as [|h l IH]; cbn; [reflexivity|]. destruct (path_lt _ _); [|reflexivity]. rewrite IH. apply perm_swap. Qed.
Lemma walk_perm dir : Permutation (walk dir) dir.
Proof. induction dir as [|f dir IH]; [reflexivity|]. cbn [walk fold_right]. rewrite insert_file_perm. now constructor. Qed.
Lemma insert_file_sorted f l : ~ In (fst f) (map fst l) -> sorted l -> sorted (insert_file f l).
Proof.
  intros N S. induction S as [|h l S IH F]; cbn [insert_file]; [repeat constructor|]. cbn in N. destruct (path_lt (fst h) (fst f)) eqn:E; unfold path_lt in E.
  - destruct (path_cmp (fst h) (fst f)) eqn:C; try discriminate. constructor; [apply IH; tauto|]. rewrite insert_file_perm. now constructor.
  - assert (L : path_cmp (fst f) (fst h) = Lt). { rewrite (to_sym _ path_order). destruct (path_cmp (fst h) (fst f)) eqn:C; [|discriminate|reflexivity]. apply path_order in C. tauto. }
    constructor; [now constructor|]. constructor; auto. eapply Forall_impl; [|exact F]. cbn. intros z Z. eapply (to_trans _ path_order); eauto.
Qed.
Lemma walk_sorted dir : NoDup (map fst dir) -> sorted (walk dir).
Proof.
  induction dir as [|f dir IH]; cbn [walk fold_right]; intros N; [constructor|]. inversion N; subst. apply insert_file_sorted; [|now apply IH].
  intros I. match goal with H : ~ In _ _ |- _ => apply H end. eapply Permutation_in; [|exact I]. apply Permutation_map, walk_perm.
Qed.
Lemma sorted_same a : forall b, sorted a -> sorted b -> Permutation a b -> a = b.
Proof.
  induction a as [|x a IH]; intros b Sa Sb P; [apply Permutation_nil in P; now subst|].
  destruct b as [|y b]; [symmetry in P; apply Permutation_nil in P; discriminate|].
  inversion Sa as [|? ? Sa' Fa]; inversion Sb as [|? ? Sb' Fb]; subst.
  assert (E : x = y).
  { assert (Ix : In x (y :: b)) by (eapply Permutation_in; [exact P|left; auto]).
    assert (Iy : In y (x :: a)) by (eapply Permutation_in; [symmetry; exact P|left; auto]).
    destruct Ix as [->|Ix]; auto. destruct Iy as [->|Iy]; auto.
    rewrite Forall_forall in Fa, Fb. specialize (Fa y Iy). specialize (Fb x Ix). cbn in *. rewrite (to_sym _ path_order), Fa in Fb. discriminate. }
  subst y. f_equal. apply IH; auto. eapply Permutation_cons_inv; eauto.
Qed.
Lemma str_cmp_app a b : b <> [] -> str_cmp a (a ++ b) = Lt.
Proof. intros N. induction a as [|c a IH]; cbn; [destruct b; congruence|]. now rewrite Nat.compare_refl. Qed.
Lemma path_cmp_last d n m : str_cmp n m = Lt -> path_cmp (d ++ [n]) (d ++ [m]) = Lt.
Proof.
  intros L. induction d as [|x d IH]; cbn [app path_cmp]; [now rewrite L|]. rewrite IH. assert (str_cmp x x = Eq) as -> by now apply str_order. reflexivity.
Qed.
Lemma plain_first p : p <> [] -> path_cmp p (patch_of p) = Lt.
Proof.
  intros N. unfold patch_of. pose proof (app_removelast_last [] N) as E. rewrite E at 1. apply path_cmp_last, str_cmp_app. discriminate.
Qed.

(** ** One file of the root *)
Section View.
Variable A : ast.
Definition act (p : path) (f : file) (v : option bytes) : option (option bytes) :=
  if eqs (base (fst f)) #"__config__.json" then Some v
  else if is_patch (fst f) then if eqp (target (fst f)) p then match v with None => None | Some s => match patch_content A s (snd f) with None => None | Some r => Some (Some r) end end else Some v
  else if eqp (fst f) p then Some (Some (snd f)) else Some v.
Fixpoint view (p : path) (l : list file) (v : option bytes) : option (option bytes) :=
  match l with [] => Some v | f :: r => match act p f v with None => None | Some v => view p r v end end.
Lemma write_get g p c q : write g p c q = if eqp q p then c else g q.
Proof. reflexivity. Qed.
Lemma eqp_sym a b : eqp a b = eqp b a.
Proof. destruct (eqp a b) eqn:E; destruct (eqp b a) eqn:F; auto; [apply eqp_eq in E|apply eqp_eq in F]; subst; symmetry; [rewrite <- F|rewrite <- E]; try (now apply eqp_eq); symmetry; now apply eqp_eq. Qed.
Lemma put_ok io g p c g' : put io g p c = (g', true) -> forall q, g' q = if eqp p q then Some c else g q.
Proof. unfold put. destruct (io p); [discriminate|]. intros [= <-] q. rewrite write_get, eqp_sym. reflexivity. Qed.
Lemma visit_act io g f g' : visit A io g f = (g', true) -> forall q, act q f (g q) = Some (g' q).
Proof.
  destruct f as [p c]. unfold visit, act. cbn [fst snd]. destruct (eqs (base p) _); [intros [= <-]; auto|]. destruct (is_patch p).
  - unfold apply_file. destruct (base (target p)); [discriminate|]. destruct (g (target p)) as [s|] eqn:G; [|discriminate]. destruct (patch_content A s c) as [r|] eqn:P; [|discriminate].
    intros H q. rewrite (put_ok _ _ _ _ _ H q). destruct (eqp (target p) q) eqn:E; [|reflexivity]. apply eqp_eq in E as <-. now rewrite G, P.
  - intros H q. rewrite (put_ok _ _ _ _ _ H q). destruct (eqp p q); reflexivity.
Qed.
Lemma visit_all_view io l : forall g g', visit_all A io g l = (g', true) -> forall q, view q l (g q) = Some (g' q).
Proof.
  induction l as [|f l IH]; intros g g' H q; cbn in *; [congruence|]. destruct (visit A io g f) as [h ok] eqn:V. destruct ok; [|discriminate].
  rewrite (visit_act _ _ _ _ V). now apply IH.
Qed.
Lemma visit_all_app io l1 l2 g : visit_all A io g (l1 ++ l2) = let '(h, ok) := visit_all A io g l1 in if ok then visit_all A io h l2 else (h, false).
Proof. revert g. induction l1 as [|f l IH]; intros g; cbn; [reflexivity|]. destruct (visit A io g f) as [h []]; auto. Qed.
Definition relevant (p : path) (f : file) : bool :=
  negb (eqs (base (fst f)) #"__config__.json") && (if is_patch (fst f) then eqp (target (fst f)) p else eqp (fst f) p).
Lemma view_filter p l : forall v, view p l v = view p (filter (relevant p) l) v.
Proof.
  induction l as [|f l IH]; intros v; cbn; [reflexivity|]. destruct (relevant p f) eqn:R; cbn [view].
  - destruct (act p f v); auto.
  - assert (act p f v = Some v) as ->; [|apply IH]. unfold relevant, act in *. destruct (eqs (base (fst f)) _); [reflexivity|]. cbn [negb andb] in R. destruct (is_patch (fst f)); rewrite R; reflexivity.
Qed.
Lemma view_app p a b v : view p (a ++ b) v = match view p a v with None => None | Some v => view p b v end.
Proof. revert v. induction a as [|f a IH]; intros v; cbn; [reflexivity|]. destruct (act p f v); auto. Qed.
End View.

(** ** The files that matter for one file of the root *)
Lemma is_patch_iff p : is_patch p = true <-> exists r, last p [] = r ++ #".xgo.patch".
Proof. apply has_suffix_iff. Qed.
Lemma trim_suffix_app r s : trim_suffix (r ++ s) s = r.
Proof. unfold trim_suffix. assert (has_suffix (r ++ s) s = true) as -> by (apply has_suffix_iff; eauto). rewrite app_length, Nat.add_sub, firstn_app, Nat.sub_diag, firstn_O, app_nil_r. apply firstn_all. Qed.
Lemma removelast_snoc {X} (l : list X) x : removelast (l ++ [x]) = l.
Proof. rewrite removelast_app by discriminate. cbn. apply app_nil_r. Qed.
Lemma target_patch_of p : p <> [] -> target (patch_of p) = p.
Proof.
  intros N. unfold target, patch_of, base, patch_suffix. rewrite removelast_snoc, last_last, trim_suffix_app. symmetry. now apply app_removelast_last.
Qed.
Lemma patch_of_is_patch p : is_patch (patch_of p) = true.
Proof. apply is_patch_iff. unfold patch_of. rewrite last_last. eauto. Qed.
Lemma patch_of_target q : q <> [] -> is_patch q = true -> patch_of (target q) = q.
Proof.
  intros N P. apply is_patch_iff in P as [r E]. unfold target, patch_of, base, patch_suffix. rewrite removelast_snoc, last_last, E, trim_suffix_app, <- E. symmetry. now apply app_removelast_last.
Qed.
Lemma patch_of_inj p q : p <> [] -> q <> [] -> patch_of p = patch_of q -> p = q.
Proof. intros Np Nq E. rewrite <- (target_patch_of p Np), E. now apply target_patch_of. Qed.
Lemma patch_not_config p : eqs (base (patch_of p)) #"__config__.json" = false.
Proof.
  destruct (eqs _ _) eqn:E; [|reflexivity]. apply eqs_eq in E. unfold base, patch_of in E. rewrite last_last in E. apply (f_equal (@rev ascii)) in E. rewrite rev_app_distr in E. cbn in E. discriminate.
Qed.
Lemma filter_sorted f l : sorted l -> sorted (filter f l).
Proof.
  induction 1 as [|x l S IH F]; cbn; [constructor|]. destruct (f x); auto. constructor; auto. rewrite Forall_forall in *. intros y I. apply filter_In in I as [I _]. auto.
Qed.
Lemma relevant_iff p f : p <> [] -> fst f <> [] -> (relevant p f = true <-> (fst f = p /\ last p [] <> #"__config__.json" /\ forall r, last p [] <> r ++ #".xgo.patch") \/ fst f = patch_of p).
Proof.
  intros Np Nf. destruct f as [q c]. unfold relevant. cbn [fst] in *. rewrite andb_true_iff, negb_true_iff. split.
  - intros [C R]. destruct (is_patch q) eqn:P; apply eqp_eq in R; subst p.
    + right. symmetry. now apply patch_of_target.
    + left. repeat split; auto; [intros E; unfold base in C; rewrite E, eqs_refl in C; discriminate|]. intros r E. assert (is_patch q = true) by (apply is_patch_iff; eauto). congruence.
  - intros [(-> & C & S)|E].
    + split; [destruct (eqs _ _) eqn:X; [apply eqs_eq in X; contradiction|reflexivity]|]. destruct (is_patch p) eqn:P; [apply is_patch_iff in P as [r P]; destruct (S r P)|now apply eqp_eq].
    + subst q. rewrite patch_not_config, patch_of_is_patch. split; auto. apply eqp_eq. now apply target_patch_of.
Qed.
(** At most the file itself and then its patch. *)
Lemma relevant_shape dir p : dir_ok dir -> p <> [] ->
  exists a b, filter (relevant p) (walk dir) = a ++ b /\
  ((a = [] /\ forall c, ~ plain dir p c) \/ exists c, a = [(p, c)] /\ plain dir p c) /\
  ((b = [] /\ forall pc, ~ patch_for dir p pc) \/ exists pc, b = [(patch_of p, pc)] /\ patch_for dir p pc).
Proof.
  intros [Nd Ok] Np. pose proof (filter_sorted (relevant p) _ (walk_sorted dir Nd)) as S.
  assert (I : forall f, In f (filter (relevant p) (walk dir)) <-> (fst f = p /\ plain dir p (snd f)) \/ (fst f = patch_of p /\ patch_for dir p (snd f))).
  { intros [q c]. rewrite filter_In. assert (W : In (q, c) (walk dir) <-> In (q, c) dir) by (split; apply Permutation_in; [apply walk_perm|symmetry; apply walk_perm]).
    rewrite W. split.
    - intros [J R]. apply relevant_iff in R; auto; [|now apply (Ok q c)]. unfold plain, patch_for. cbn [fst snd] in *. destruct R as [(-> & C & X)| ->]; auto.
    - cbn [fst snd]. intros [[-> (J & C & X)]|[-> J]]; (split; [exact J|]); (apply relevant_iff; [auto|cbn [fst]; now apply (Ok _ _ J)|auto]). }
  set (l := filter (relevant p) (walk dir)) in *. clearbody l.
  assert (Lt : path_cmp p (patch_of p) = Lt) by now apply plain_first.
  assert (R : forall q, path_cmp q q = Eq) by (intros q; now apply path_order).
  destruct l as [|[q c] l].
  { exists [], []. split; [reflexivity|]. split; left; (split; [reflexivity|]); intros c H; [apply (I (p, c))|apply (I (patch_of p, c))]; cbn; auto. }
  inversion S as [|? ? S' F]; subst. rewrite Forall_forall in F. cbn [fst] in F.
  destruct (proj1 (I (q, c)) (or_introl eq_refl)) as [[E P]|[E P]]; cbn [fst snd] in *; subst q.
  - exists [(p, c)], l. split; [reflexivity|]. split; [eauto|]. destruct l as [|[q d] l].
    + left. split; [reflexivity|]. intros pc H. destruct (proj2 (I (patch_of p, pc)) (or_intror (conj eq_refl H))) as [E|[]]. injection E as E _. rewrite <- E, R in Lt. discriminate.
    + right. destruct (proj1 (I (q, d)) (or_intror (or_introl eq_refl))) as [[E Q]|[E Q]]; cbn [fst snd] in *; subst q.
      { specialize (F (p, d) (or_introl eq_refl)). cbn in F. rewrite R in F. discriminate. }
      exists d. split; auto. f_equal. destruct l as [|[q e] l]; [reflexivity|]. exfalso. inversion S' as [|? ? S'' F']; subst. rewrite Forall_forall in F'. specialize (F' (q, e) (or_introl eq_refl)). pose proof (F (q, e) (or_intror (or_introl eq_refl))) as Fq.
      destruct (proj1 (I (q, e)) (or_intror (or_intror (or_introl eq_refl)))) as [[E _]|[E _]]; cbn [fst] in *; subst q; rewrite R in *; discriminate.
  - assert (Np' : forall x, ~ plain dir p x). { intros x H. destruct (proj2 (I (p, x)) (or_introl (conj eq_refl H))) as [E|J]; [injection E as E _; rewrite E, R in Lt; discriminate|]. specialize (F _ J). cbn in F. rewrite (to_sym _ path_order), F in Lt. discriminate. }
    exists [], ((patch_of p, c) :: l). split; [reflexivity|]. split; [auto|]. right. exists c. split; auto. f_equal. destruct l as [|[q d] l]; [reflexivity|]. exfalso. specialize (F (q, d) (or_introl eq_refl)). cbn in F.
    destruct (proj1 (I (q, d)) (or_intror (or_introl eq_refl))) as [[E Q]|[E Q]]; cbn [fst snd] in *; subst q; [destruct (Np' d Q)|rewrite R in F; discriminate].
Qed.
Lemma act_plain A dir p c v : plain dir p c -> act A p (p, c) v = Some (Some c).
Proof.
  intros (_ & C & S). unfold act. cbn [fst snd]. destruct (eqs (base p) _) eqn:E; [apply eqs_eq in E; contradiction|]. destruct (is_patch p) eqn:P; [apply is_patch_iff in P as [r P]; destruct (S r P)|].
  assert (eqp p p = true) as -> by now apply eqp_eq. reflexivity.
Qed.
Lemma act_patch A p pc v : p <> [] -> act A p (patch_of p, pc) v = match v with None => None | Some s => match patch_content A s pc with None => None | Some r => Some (Some r) end end.
Proof. intros N. unfold act. cbn [fst snd]. rewrite patch_not_config, patch_of_is_patch, target_patch_of by auto. assert (eqp p p = true) as -> by now apply eqp_eq. reflexivity. Qed.
Lemma patch_unique (dir : list file) p a b : NoDup (map fst dir) -> In (p, a) dir -> In (p, b) dir -> a = b.
Proof.
  induction dir as [|[q c] dir IH]; intros N; [intros []|]. inversion N; subst. intros [E|I] [F|J].
  - congruence.
  - injection E as -> ->. exfalso. apply (in_map fst) in J. contradiction.
  - injection F as -> ->. exfalso. apply (in_map fst) in I. contradiction.
  - auto.
Qed.
Lemma view_expected A dir g p v : dir_ok dir -> p <> [] -> (view A p (walk dir) (g p) = Some v <-> expected A dir g p v).
Proof.
  intros Ok Np. pose proof (proj1 Ok) as Nd. rewrite view_filter. destruct (relevant_shape dir p Ok Np) as (a & b & -> & Ha & Hb). rewrite view_app. unfold expected, before. split.
  - intros H. assert (V : exists w, view A p a (g p) = Some w /\ ((exists c, plain dir p c /\ w = Some c) \/ (forall c, ~ plain dir p c) /\ w = g p)).
    { destruct Ha as [[-> N]|(c & -> & P)]; cbn [view]; [eauto|]. erewrite act_plain by eauto. eauto 6. }
    destruct V as (w & E & B). rewrite E in H. exists w. split; [exact B|]. destruct Hb as [[-> N]|(pc & -> & P)]; cbn [view] in H; [left; split; [exact N|congruence]|].
    right. rewrite act_patch in H by auto. destruct w as [s|]; [|discriminate]. destruct (patch_content A s pc) as [r|] eqn:Q; [|discriminate]. injection H as <-. exists pc, s, r. auto.
  - intros (w & B & H). assert (V : view A p a (g p) = Some w).
    { destruct Ha as [[-> N]|(c & -> & P)]; cbn [view].
      - destruct B as [(c & P & _)|[_ ->]]; [destruct (N c P)|reflexivity].
      - erewrite act_plain by eauto. destruct B as [(d & D & ->)|[N _]]; [|destruct (N c P)]. do 2 f_equal. destruct P, D. eapply patch_unique; eauto. }
    rewrite V. destruct Hb as [[-> N]|(pc & -> & P)]; cbn [view].
    + destruct H as [[_ ->]|(pc & _ & _ & P & _)]; [reflexivity|destruct (N pc P)].
    + rewrite act_patch by auto. destruct H as [[N _]|(pc' & c & r & P' & -> & Q & ->)]; [destruct (N pc P)|]. assert (pc' = pc) as -> by (eapply patch_unique; eauto). now rewrite Q.
Qed.

(** ** Success *)
Lemma base_target_nonempty q : last q [] <> #".xgo.patch" -> is_patch q = true -> base (target q) <> [].
Proof.
  intros N P. apply is_patch_iff in P as [r E]. unfold target, base. rewrite last_last. unfold base. rewrite E in *. unfold patch_suffix. rewrite trim_suffix_app. intros ->. now apply N.
Qed.
Lemma visit_ok A io g f : (forall p, io p = None) -> last (fst f) [] <> #".xgo.patch" -> (forall p, p <> [] -> act A p f (g p) <> None) -> exists g', visit A io g f = (g', true).
Proof.
  destruct f as [q c]. cbn [fst]. intros Io Nb Ac. unfold visit. destruct (eqs (base q) _) eqn:C; [eauto|]. destruct (is_patch q) eqn:P; [|unfold put; rewrite Io; eauto].
  unfold apply_file. pose proof (base_target_nonempty q Nb P) as Nt. destruct (base (target q)) eqn:B; [congruence|].
  assert (Nn : target q <> []) by (unfold target; intros Z; apply app_eq_nil in Z as [_ Z]; discriminate). specialize (Ac (target q) Nn). unfold act in Ac. cbn [fst snd] in Ac. rewrite C, P in Ac. assert (eqp (target q) (target q) = true) as X by now apply eqp_eq. rewrite X in Ac.
  destruct (g (target q)) as [s|]; [|congruence]. destruct (patch_content A s c); [|congruence]. unfold put. rewrite Io. eauto.
Qed.
Lemma visit_all_ok A io l : (forall p, io p = None) -> (forall f, In f l -> last (fst f) [] <> #".xgo.patch") -> forall g, (forall p, p <> [] -> view A p l (g p) <> None) -> exists g', visit_all A io g l = (g', true).
Proof.
  intros Io. induction l as [|f l IH]; intros Nb g V; cbn [visit_all]; [eauto|].
  destruct (visit_ok A io g f Io (Nb f (or_introl eq_refl))) as [h H]. { intros p Np E. apply (V p Np). cbn. now rewrite E. }
  rewrite H. apply IH; [intros; apply Nb; now right|]. intros p Np. specialize (V p Np). cbn in V. rewrite (visit_act _ _ _ _ _ H) in V. exact V.
Qed.
Lemma expected_exists A dir g p : dir_ok dir -> patches_fit A dir g -> p <> [] -> last p [] <> [] -> exists v, expected A dir g p v.
Proof.
  intros Ok [_ Fit] Np Nl. destruct (relevant_shape dir p Ok Np) as (a & b & _ & Ha & Hb).
  destruct Hb as [[_ N]|(pc & _ & P)].
  - destruct Ha as [[_ M]|(c & _ & Q)]; [exists (g p), (g p)|exists (Some c), (Some c)]; (split; [|left; auto]); [right; auto|left; eauto].
  - destruct (Fit p pc Nl P) as (c & r & B & Q). exists (Some r), (Some c). split; auto. right. exists pc, c, r. auto.
Qed.
Lemma view_empty_name A dir p v : dir_ok dir -> (forall q c, In (q, c) dir -> last q [] <> #".xgo.patch") -> p <> [] -> last p [] = [] -> view A p (walk dir) v = Some v.
Proof.
  intros Ok Nb Np E. rewrite view_filter. destruct (relevant_shape dir p Ok Np) as (a & b & -> & Ha & Hb). destruct Ok as [Nd Ok].
  destruct Ha as [[-> _]|(c & _ & (I & _))]; [|exfalso; destruct (Ok _ _ I) as [_ F]; rewrite (app_removelast_last [] Np), Forall_app in F; destruct F as [_ F]; inversion F; congruence].
  destruct Hb as [[-> _]|(pc & _ & I)]; [reflexivity|]. exfalso. apply (Nb _ _ I). unfold patch_of. rewrite last_last. exact (f_equal (fun n => n ++ #".xgo.patch") E).
Qed.

(** ** Theorems *)
(** When the directory has been applied, every file is what the directory says: a file of the directory, else the file that was there, patched if the directory has a patch for it. *)
Theorem C90_result A io dir g g' :
  dir_ok dir -> apply_patch_files A io dir g = (g', true) -> forall p, p <> [] -> expected A dir g p (g' p).
Proof. intros Ok H p Np. apply view_expected; auto. eapply visit_all_view; eauto. Qed.
(** It is applied if files can be written and the patches fit. *)
Theorem C90_succeeds A io dir g :
  dir_ok dir -> (forall p, io p = None) -> patches_fit A dir g -> exists g', apply_patch_files A io dir g = (g', true).
Proof.
  intros Ok Io Fit. apply visit_all_ok; auto.
  - intros [q c] I. apply (proj1 Fit q c). eapply Permutation_in; [apply walk_perm|exact I].
  - intros p Np. destruct (last p []) as [|n0 n] eqn:L.
    + rewrite view_empty_name; auto; [discriminate|]. exact (proj1 Fit).
    + destruct (expected_exists A dir g p Ok Fit Np) as [v E]; [intros Z; change (last p [] = []) in Z; assert (n0 :: n = []) by (etransitivity; [symmetry; exact L|exact Z]); discriminate|]. apply view_expected in E; auto. congruence.
Qed.
(** Only then. *)
Theorem C90_no_silent_failure A io dir g g' :
  dir_ok dir -> apply_patch_files A io dir g = (g', true) -> patches_fit A dir g.
Proof.
  intros Ok H. assert (Nb : forall q c, In (q, c) dir -> last q [] <> #".xgo.patch").
  { intros q c I E. assert (J : In (q, c) (walk dir)) by (eapply Permutation_in; [symmetry; apply walk_perm|exact I]).
    apply in_split in J as (l1 & l2 & W). unfold apply_patch_files in H. rewrite W, visit_all_app in H. destruct (visit_all A io g l1) as [h []]; [|discriminate]. cbn [visit_all] in H.
    assert (visit A io h (q, c) = (h, false)) as X; [|rewrite X in H; discriminate]. unfold visit. unfold base. rewrite E. assert (is_patch q = true) as -> by (apply is_patch_iff; exists []; exact E).
    change (eqs #".xgo.patch" #"__config__.json") with false. cbn iota. unfold apply_file. assert (base (target q) = []) as ->; [|reflexivity].
    unfold target, base. rewrite last_last, E. reflexivity. }
  split; [exact Nb|]. intros p pc Nl P. assert (Np : p <> []) by (intros ->; cbn in Nl; congruence).
  destruct (C90_result A io dir g g' Ok H p Np) as (b & B & [[N _]|(pc' & c & r & P' & -> & Q & _)]); [destruct (N pc P)|].
  assert (pc' = pc) as -> by (destruct Ok; eapply patch_unique; eauto). eauto.
Qed.
(** The order in which the directory is listed does not matter. *)
Theorem C90_any_order A io dir dir' g : dir_ok dir -> Permutation dir dir' -> apply_patch_files A io dir g = apply_patch_files A io dir' g.
Proof.
  intros [Nd _] P. unfold apply_patch_files. f_equal. apply sorted_same; [now apply walk_sorted|apply walk_sorted; eapply Permutation_NoDup; [apply Permutation_map; exact P|exact Nd]|].
  rewrite !walk_perm. exact P.
Qed.
(** Files that the directory does not name are left alone, also when there is an error. *)
Lemma visit_untouched A io g f p : relevant p f = false -> fst (visit A io g f) p = g p.
Proof.
  destruct f as [q c]. unfold relevant, visit. cbn [fst]. destruct (eqs (base q) _); [reflexivity|]. cbn [negb andb].
  assert (W : forall t x, eqp t p = false -> write g t x p = g p) by (intros t x E; rewrite write_get, eqp_sym, E; reflexivity).
  destruct (is_patch q); intros E.
  - unfold apply_file. destruct (base (target q)); [reflexivity|]. destruct (g (target q)); [|reflexivity]. destruct (patch_content A _ c); [|reflexivity]. unfold put. destruct (io (target q)); cbn [fst]; now apply W.
  - unfold put. destruct (io q); cbn [fst]; now apply W.
Qed.
Lemma visit_all_untouched A io p l : forall g, filter (relevant p) l = [] -> fst (visit_all A io g l) p = g p.
Proof.
  induction l as [|f l IH]; intros g E; cbn [visit_all]; [reflexivity|]. cbn [filter] in E. destruct (relevant p f) eqn:R; [discriminate|].
  pose proof (visit_untouched A io g f p R) as U. destruct (visit A io g f) as [h []]; cbn [fst] in *; [rewrite IH; auto|auto].
Qed.
Theorem C90_untouched A io dir g p :
  dir_ok dir -> p <> [] -> (forall c, ~ plain dir p c) -> (forall pc, ~ patch_for dir p pc) -> fst (apply_patch_files A io dir g) p = g p.
Proof.
  intros Ok Np N M. apply visit_all_untouched. destruct (relevant_shape dir p Ok Np) as (a & b & -> & Ha & Hb).
  destruct Ha as [[-> _]|(c & _ & P)]; [|destruct (N c P)]. destruct Hb as [[-> _]|(pc & _ & P)]; [reflexivity|destruct (M pc P)].
Qed.
(** A run that was stopped after any number of files, by a crash or an error, can be done again: the result is that of a run that was not stopped.  In particular applying the directory twice is the same as once. *)
Theorem C90_again A io dir g n g1 g2 :
  dir_ok dir -> (forall p, io p = None) -> stable A dir g ->
  apply_patch_files A io dir g = (g2, true) ->
  fst (visit_all A io g (firstn n (walk dir))) = g1 ->
  exists g3, apply_patch_files A io dir g1 = (g3, true) /\ forall p, p <> [] -> g3 p = g2 p.
Proof.
  intros Ok Io St H E.
  assert (V1 : exists ok, visit_all A io g (firstn n (walk dir)) = (g1, ok)) by (destruct (visit_all A io g (firstn n (walk dir))) as [x ok]; cbn in E; subst; eauto). destruct V1 as [ok V1].
  assert (ok = true) as ->. { unfold apply_patch_files in H. rewrite <- (firstn_skipn n (walk dir)), visit_all_app, V1 in H. destruct ok; [reflexivity|discriminate]. }
  assert (Vw : forall p, p <> [] -> view A p (walk dir) (g1 p) = Some (g2 p)).
  { intros p Np. pose proof (visit_all_view _ _ _ _ _ V1 p) as X1. pose proof (visit_all_view _ _ _ _ _ H p) as X2. rewrite view_filter in *.
    assert (Pre : exists l2, filter (relevant p) (walk dir) = filter (relevant p) (firstn n (walk dir)) ++ l2) by (exists (filter (relevant p) (skipn n (walk dir))); rewrite <- filter_app, firstn_skipn; reflexivity).
    destruct Pre as [l2 Pre]. set (l1 := filter (relevant p) (firstn n (walk dir))) in *. clearbody l1.
    destruct (relevant_shape dir p Ok Np) as (a & b & Sh & Ha & Hb). rewrite Sh in *. rewrite view_app in *.
    destruct Ha as [[-> Na]|(c & -> & Pl)].
    - cbn [app view] in *. destruct Hb as [[-> Nb]|(pc & -> & Pp)].
      + symmetry in Pre. apply app_eq_nil in Pre as [-> _]. cbn in *. congruence.
      + destruct l1 as [|f l1]; [cbn in X1; congruence|]. injection Pre as <- Pre. symmetry in Pre. apply app_eq_nil in Pre as [-> _]. cbn [view] in *.
        rewrite act_patch in * by auto. destruct (g p) as [s|] eqn:G; [|discriminate]. destruct (patch_content A s pc) as [r|] eqn:Q; [|discriminate]. injection X1 as <-. injection X2 as <-.
        now rewrite (St p pc s r Pp Na G Q).
    - cbn [view] in *. rewrite (act_plain A dir p c) in * by auto. exact X2. }
  destruct (visit_all_ok A io (walk dir) Io) with (g := g1) as [g3 H3].
  - intros [q c] I. apply (proj1 (C90_no_silent_failure A io dir g g2 Ok H) q c). eapply Permutation_in; [apply walk_perm|exact I].
  - intros p Np. rewrite Vw by auto. discriminate.
  - exists g3. split; [exact H3|]. intros p Np. pose proof (visit_all_view _ _ _ _ _ H3 p) as X. rewrite Vw in X by auto. congruence.
Qed.
(** After an error or a crash every file is as it was, as the directory has it, or as it is to be in the end. *)
Theorem C90_stopped A io dir g n g1 ok p :
  dir_ok dir -> p <> [] -> visit_all A io g (firstn n (walk dir)) = (g1, ok) -> (forall p, io p = None) ->
  g1 p = g p \/ (exists c, plain dir p c /\ g1 p = Some c) \/ expected A dir g p (g1 p).
Proof.
  intros Ok Np V1 Io.
  (* the files before the one that failed *)
  assert (M : exists m, visit_all A io g (firstn m (walk dir)) = (g1, true)).
  { clear Ok Np. revert g n V1. induction (walk dir) as [|f l IH]; intros g n V; [rewrite firstn_nil in V; exists 0; cbn in *; congruence|].
    destruct n as [|n]; [exists 0; cbn in *; congruence|]. cbn [firstn visit_all] in V. destruct (visit A io g f) as [h o] eqn:Vf. destruct o.
    - apply IH in V as [m V]. exists (S m). cbn [firstn visit_all]. now rewrite Vf.
    - exists 0. injection V as -> _. cbn. f_equal. clear -Vf Io. destruct f as [q c]. unfold visit, apply_file, put in Vf.
      repeat match type of Vf with context [if ?x then _ else _] => destruct x | context [match ?x with _ => _ end] => destruct x eqn:? end; try congruence; rewrite Io in *; discriminate. }
  destruct M as [m V]. pose proof (visit_all_view _ _ _ _ _ V p) as X. pose proof (view_expected A dir g p (g1 p) Ok Np) as VE. rewrite view_filter in X.
  rewrite (view_filter A p (walk dir)) in VE.
  assert (Pre : exists l2, filter (relevant p) (walk dir) = filter (relevant p) (firstn m (walk dir)) ++ l2) by (exists (filter (relevant p) (skipn m (walk dir))); rewrite <- filter_app, firstn_skipn; reflexivity).
  destruct Pre as [l2 Pre]. set (l1 := filter (relevant p) (firstn m (walk dir))) in *. clearbody l1.
  destruct l1 as [|f l1]; [left; cbn in X; congruence|].
  destruct l2 as [|f2 l2]; [rewrite app_nil_r in Pre; right; right; apply VE; now rewrite Pre|].
  destruct (relevant_shape dir p Ok Np) as (a & b & Sh & Ha & Hb). rewrite Sh in Pre.
  destruct Ha as [[-> Na]|(c & -> & Pl)].
  - destruct Hb as [[-> _]|(pc & -> & _)]; [discriminate|]. injection Pre as _ Pre. destruct l1; discriminate.
  - injection Pre as <- Pre. destruct l1 as [|f3 l1]; [|destruct Hb as [[-> _]|(pc & -> & _)]; [discriminate|]; injection Pre as _ Pre; destruct l1; discriminate].
    cbn [view] in X. rewrite (act_plain A dir p c) in X by auto. right. left. exists c. split; congruence.
Qed.
