(** * The JSON endpoints (C122, C123) *)
From Coq Require Import Ascii String List Arith Bool Lia.
From Verif Require Import M_Str P_Str M_Version M_Http.
Import ListNotations.
Open Scope nat_scope.
Open Scope list_scope.

(** Specification: an answer has a status, a body, a type if one was set, and lets any page read it. *)
Definition open_to_all (h : list (bytes * bytes)) : Prop := header h #"Access-Control-Allow-Origin" = Some #"*" /\ header h #"Access-Control-Allow-Headers" = Some #"*".
Definition answers (r : nat * list (bytes * bytes) * bytes) (status : nat) (type : option bytes) (text : bytes) : Prop :=
  exists h, r = (status, h, text) /\ header h #"Content-Type" = type /\ open_to_all h.
Definition status_of (f : failure) : nat := match f with Param _ => 400 | Other _ => 500 end.

Section Answers.
  Variable A : Type.
  Variable marshal : A -> failure + bytes.
  Notation serve := (serve marshal).
  (** ** C122 *)
  (** Data that can be encoded are answered by 200 and the encoding. *)
  Theorem C122_data (method : bytes) (d : A) (j : bytes) : method <> #"OPTIONS" -> marshal d = inr j ->
    answers (serve method (Returns (Some d) None)) 200 (Some #"application/json") j.
  Proof.
    intros M E. apply eqs_false in M. unfold serve, HandleJSON. rewrite M. cbn [json]. rewrite E. eexists. split; [|split; [|split]]; reflexivity.
  Qed.
  (** No data: null. *)
  Theorem C122_no_data (method : bytes) : method <> #"OPTIONS" -> answers (serve method (Returns None None)) 200 (Some #"application/json") #"null".
  Proof. intros M. apply eqs_false in M. unfold serve, HandleJSON. rewrite M. eexists. split; [|split; [|split]]; reflexivity. Qed.
  (** An error: its status and its message; what it returned besides is not sent. The same for data
      that cannot be encoded, and for a panic with a value that is not an error. *)
  Lemma error_answer (method : bytes) (e : failure) (h : ending A) : method <> #"OPTIONS" ->
    (exists d, h = Returns d (Some e)) \/ (exists d, h = Returns (Some d) None /\ marshal d = inl e) \/ (exists v, h = PanicsValue v /\ e = Other (#"panic: " ++ v)) ->
    answers (serve method h) (status_of e) None (message e).
  Proof.
    intros M H. apply eqs_false in M.
    assert (X : serve method h = received (let w := write_header (SetCORSHeaders new_writer) (status_of e) in write (set_header w #"Content-Type" #"text/plain") (message e))).
    { unfold serve, HandleJSON. rewrite M. destruct H as [(d & ->)|[(d & -> & E)|(v & -> & ->)]]; cbn [json]; rewrite ?E; reflexivity. }
    rewrite X. eexists. split; [|split; [|split]]; [reflexivity| | |]; reflexivity.
  Qed.
  Theorem C122_errors (method : bytes) (e : failure) (h : ending A) : method <> #"OPTIONS" ->
    (exists d, h = Returns d (Some e)) \/ (exists d, h = Returns (Some d) None /\ marshal d = inl e) \/ (exists v, h = PanicsValue v /\ e = Other (#"panic: " ++ v)) ->
    exists t, answers (serve method h) (status_of e) t (message e).
  Proof. intros M H. exists None. now apply error_answer. Qed.
  (** A preflight request is answered without the handler. *)
  Theorem C122_preflight (h : ending A) : exists r, answers r 200 None [] /\ serve #"OPTIONS" h = r.
  Proof. eexists. split; [|reflexivity]. eexists. split; [|split; [|split]]; reflexivity. Qed.
  (** Every answer can be read by any page. *)
  Theorem C122_cors (method : bytes) (h : ending A) : exists s t b, answers (serve method h) s t b.
  Proof.
    destruct (eqs method #"OPTIONS") eqn:M.
    { apply eqs_eq in M as ->. destruct (C122_preflight h) as (r & H & ->). eauto. }
    apply eqs_false in M. destruct h as [[d|] [e|]|e|v].
    - eexists _, _, _. apply (error_answer _ e); eauto.
    - destruct (marshal d) as [e|j] eqn:E; eexists _, _, _; [apply (error_answer _ e); eauto|apply C122_data; eauto].
    - eexists _, _, _. apply (error_answer _ e); eauto.
    - eexists _, _, _. now apply C122_no_data.
    - eexists 200, _, #"null". apply eqs_false in M. unfold serve, HandleJSON. rewrite M. eexists. split; [|split; [|split]]; reflexivity.
    - eexists _, _, _. apply (error_answer _ (Other (#"panic: " ++ v))); eauto.
  Qed.
  (** The status tells whether the request was served: unless the handler panics with an error. *)
  Theorem C122_status_partial (method : bytes) (h : ending A) : method <> #"OPTIONS" -> (forall e, h <> PanicsError e) ->
    (fst (fst (serve method h)) = 200 <-> (exists d j, h = Returns (Some d) None /\ marshal d = inr j) \/ h = Returns None None).
  Proof.
    intros M N. destruct h as [[d|] [e|]|e|v].
    - destruct (error_answer method e (Returns (Some d) (Some e)) M) as (hd & -> & _); [eauto|]. cbn [fst]. split; [destruct e; discriminate|]. intros [(? & ? & X & _)|X]; discriminate X.
    - destruct (marshal d) as [e|j] eqn:E.
      + destruct (error_answer method e (Returns (Some d) None) M) as (hd & -> & _); [eauto|]. cbn [fst]. split; [destruct e; discriminate|]. intros [(d' & j & X & Y)|X]; [injection X as <-; congruence|discriminate X].
      + destruct (C122_data method d j M E) as (hd & -> & _). cbn [fst]. split; [intros _; left; eauto|auto].
    - destruct (error_answer method e (Returns None (Some e)) M) as (hd & -> & _); [eauto|]. cbn [fst]. split; [destruct e; discriminate|]. intros [(? & ? & X & _)|X]; discriminate X.
    - destruct (C122_no_data method M) as (hd & -> & _). cbn [fst]. split; auto.
    - now destruct (N e).
    - destruct (error_answer method (Other (#"panic: " ++ v)) (PanicsValue v) M) as (hd & -> & _); [eauto|]. cbn [fst]. split; [discriminate|]. intros [(? & ? & X & _)|X]; discriminate X.
  Qed.
  (** A handler that panics with an error, such as a nil pointer: answered as a success. *)
  Theorem C122_panic_refuted (method : bytes) (e : failure) : method <> #"OPTIONS" -> answers (serve method (PanicsError e)) 200 (Some #"application/json") #"null".
  Proof. intros M. apply eqs_false in M. unfold serve, HandleJSON. rewrite M. eexists. split; [|split; [|split]]; reflexivity. Qed.
  (** And the text/plain of an error comes too late to be sent. *)
  Theorem C122_type_refuted (method : bytes) (e : failure) (d : option A) : method <> #"OPTIONS" -> answers (serve method (Returns d (Some e))) (status_of e) None (message e).
  Proof. intros M. apply error_answer; eauto. Qed.
End Answers.

(** ** C123 *)
(** Specification: a request is refused: 400 and a message, and nothing is done. *)
Section Requests.
  Variable A : Type.
  Variable marshal : A -> failure + bytes.
  Variable answer : A.
  Definition refused (r : run A) : Prop := fst r = [] /\ forall method, method <> #"OPTIONS" -> exists t b, answers (serve marshal method (snd r)) 400 t b /\ b <> [].
  Lemma fail_refused m : m <> [] -> refused (fail m).
  Proof. intros N. split; [reflexivity|]. intros method M. exists None, m. split; [apply (error_answer A marshal method (Param m)); [exact M|left; eexists; reflexivity]|exact N]. Qed.
  Variables ce se : option failure.
  (** Starting a run: without a file, or to debug what is not one test, refused; a body that cannot
      be read or decoded does nothing; otherwise the run starts as asked, with a trace only for one test. *)
  Theorem C123_start (r : start_request) :
    (item r = None \/ (exists k, item r = Some ([], k)) \/ (exists f, item r = Some (f, false)) /\ debug r = true -> refused (session_start A answer ce se (Value r)))
    /\ refused (session_start A answer ce se Nil)
    /\ (forall e, fst (session_start A answer ce se (BadBody e)) = [] /\ snd (session_start A answer ce se (BadBody e)) = Returns None (Some e))
    /\ (ce = None -> se = None -> forall f k, item r = Some (f, k) -> f <> [] -> (debug r = true -> k = true) ->
        session_start A answer ce se (Value r) = ([Configured; SessionStarted (debug r) (trace r && k)], Returns (Some answer) None)).
  Proof.
    assert (F1 : refused (fail #"requires file")) by now apply fail_refused. assert (F2 : refused (fail #"debug not supported")) by now apply fail_refused.
    split; [|split; [|split]].
    - unfold session_start. intros [->|[(k & ->)|((f & ->) & ->)]]; auto. destruct f; auto.
    - exact F1.
    - intros e. split; reflexivity.
    - intros -> -> f k E N D. unfold session_start. rewrite E. destruct f; [congruence|]. destruct (debug r) eqn:B; [rewrite D by auto; reflexivity|reflexivity].
  Qed.
  Variable known : bytes -> bool.
  (** Polling and destroying: an empty id is refused, and so is the poll of an unknown session. *)
  Theorem C123_session_partial (id : bytes) :
    refused (session_poll A answer known (Value [])) /\ refused (session_destroy A (Value []))
    /\ (id <> [] -> (known id = false -> refused (session_poll A answer known (Value id)))
                    /\ (known id = true -> session_poll A answer known (Value id) = ([SessionPolled id], Returns (Some answer) None))
                    /\ session_destroy A (Value id) = ([SessionDestroyed id], Returns None None)).
  Proof.
    split; [now apply fail_refused|]. split; [now apply fail_refused|]. intros N. destruct id as [|c id]; [congruence|]. unfold session_poll, session_destroy. split; [|split; [|reflexivity]].
    - intros ->. split; [reflexivity|]. intros method M. eexists None, _. split; [apply (error_answer A marshal method (Param (#"session " ++ (c :: id) ++ #" does not exist or has been removed"))); [exact M|left; eexists; reflexivity]|discriminate].
    - intros ->. reflexivity.
  Qed.
  (** Without a body (or with the body null) both are answered as a success, and nothing is done. *)
  Theorem C123_no_body_refuted (method : bytes) : method <> #"OPTIONS" ->
    answers (serve marshal method (snd (session_poll A answer known Nil))) 200 (Some #"application/json") #"null"
    /\ answers (serve marshal method (snd (session_destroy A Nil))) 200 (Some #"application/json") #"null"
    /\ fst (session_poll A answer known Nil) = [] /\ fst (session_destroy A Nil) = [].
  Proof. intros M. split; [now apply C122_panic_refuted|]. split; [now apply C122_panic_refuted|]. auto. Qed.
  Variable atoi : bytes -> option nat.
  Variable decls : bytes -> failure + list (bytes * A).
  (** The text of a test: the query's file and name count before those of the body. *)
  Definition given (query in_body v : bytes) : Prop := (query <> [] /\ v = query) \/ (query = [] /\ v = in_body).
  Theorem C123_detail (b : parsed (bytes * bytes)) (bf bn qf qn ql f n : bytes) :
    b = Value (bf, bn) \/ (b = Nil /\ bf = [] /\ bn = []) -> given qf bf f -> given qn bn n ->
    (f = [] \/ n = [] \/ (ql <> [] /\ atoi ql = None) -> refused (detail A atoi decls b qf qn ql))
    /\ (f <> [] -> n <> [] -> (ql <> [] -> atoi ql <> None) ->
        (forall before t after, decls f = inr (before ++ (n, t) :: after) -> ~ In n (map fst before) -> snd (detail A atoi decls b qf qn ql) = Returns (Some t) None)
        /\ (forall ds, decls f = inr ds -> ~ In n (map fst ds) -> forall method, method <> #"OPTIONS" -> exists t, answers (serve marshal method (snd (detail A atoi decls b qf qn ql))) 400 t (#"not found: " ++ n))).
  Proof.
    intros B F N.
    assert (FL : match qf with [] => bf | _ => qf end = f) by (destruct F as [[X ->]|[-> ->]]; [destruct qf; congruence|reflexivity]).
    assert (NL : match qn with [] => bn | _ => qn end = n) by (destruct N as [[X ->]|[-> ->]]; [destruct qn; congruence|reflexivity]).
    set (body := if negb (eqs ql []) && match atoi ql with None => true | Some _ => false end then fail #"line"
        else if eqs f [] then fail #"requires file" else if eqs n [] then fail #"requires name"
        else match decls f with
             | inl e => ([FileRead f n], Returns None (Some e))
             | inr ds => ([FileRead f n], match find (fun d => eqs (fst d) n) ds with None => Returns None (Some (Param (#"not found: " ++ n))) | Some d => Returns (Some (snd d)) None end)
             end : run A).
    assert (E : detail A atoi decls b qf qn ql = body) by (destruct B as [-> |(-> & -> & ->)]; unfold body; rewrite <- FL, <- NL; reflexivity).
    rewrite E. clear E. unfold body. clear body.
    assert (F1 : refused (fail #"line")) by now apply fail_refused. assert (F2 : refused (fail #"requires file")) by now apply fail_refused. assert (F3 : refused (fail #"requires name")) by now apply fail_refused.
    split.
    - intros H. destruct (eqs ql []) eqn:Q; cbn [negb andb].
      + apply eqs_eq in Q. destruct (eqs f []) eqn:Z; [exact F2|]. apply eqs_false in Z. destruct (eqs n []) eqn:Y; [exact F3|]. apply eqs_false in Y. intuition congruence.
      + destruct (atoi ql) as [k|]; [|exact F1]. destruct (eqs f []) eqn:Z; [exact F2|]. apply eqs_false in Z. destruct (eqs n []) eqn:Y; [exact F3|]. apply eqs_false in Y. destruct H as [H|[H|[_ H]]]; congruence.
    - intros Nf Nn Nq. assert (X : negb (eqs ql []) && match atoi ql with None => true | Some _ => false end = false).
      { destruct (eqs ql []) eqn:Q; [reflexivity|]. apply eqs_false in Q. destruct (atoi ql); [reflexivity|]. now destruct (Nq Q). }
      rewrite X. apply eqs_false in Nf as ->. apply eqs_false in Nn as ->. split.
      + intros before t after -> NI. cbn [snd]. replace (find _ _) with (Some (n, t)); [reflexivity|]. symmetry. induction before as [|[m u] before IH]; cbn [app find fst].
        * now rewrite (proj2 (eqs_eq n n) eq_refl).
        * destruct (eqs m n) eqn:Z; [apply eqs_eq in Z; subst; exfalso; apply NI; now left|]. apply IH. intros I. apply NI. now right.
      + intros ds -> NI method M. cbn [snd]. replace (find _ _) with (@None (bytes * A)); [exists None; apply (error_answer A marshal method (Param (#"not found: " ++ n))); [exact M|left; eexists; reflexivity]|].
        symmetry. destruct (find _ ds) as [[m u]|] eqn:Z; [|reflexivity]. apply find_some in Z as [I Z]. apply eqs_eq in Z. cbn in Z. exfalso. apply NI. rewrite <- Z. apply (in_map fst) in I. exact I.
  Qed.
  Variable opened : bytes -> nat -> option failure.
  (** Opening a file: without a file an editor is opened all the same, and a line that is no number
      is taken for none. *)
  Theorem C123_open_refuted (line : bytes) : atoi line = None -> fst (open_file A atoi opened [] line) = [EditorOpened [] 0].
  Proof. intros E. unfold open_file. rewrite E. reflexivity. Qed.
End Requests.
(** Non-vacuity. *)
Example C122_ex : answers (serve (fun s : bytes => inr (#"""" ++ s ++ #"""")) #"POST" (Returns (Some #"x") None)) 200 (Some #"application/json") #"""x""".
Proof. apply C122_data; [discriminate|reflexivity]. Qed.
Example C123_ex : detail bytes (fun _ => Some 1) (fun _ => inr [(#"TestA", #"func TestA"); (#"TestB", #"func TestB")]) (Value (#"a_test.go", #"TestA")) [] #"TestB" []
  = ([FileRead #"a_test.go" #"TestB"], Returns (Some #"func TestB") None).
Proof. reflexivity. Qed.
Print Assumptions C122_data. Print Assumptions C122_no_data. Print Assumptions C122_errors. Print Assumptions C122_preflight. Print Assumptions C122_cors. Print Assumptions C122_status_partial.
Print Assumptions C122_panic_refuted. Print Assumptions C122_type_refuted. Print Assumptions C123_start. Print Assumptions C123_session_partial. Print Assumptions C123_no_body_refuted. Print Assumptions C123_detail. Print Assumptions C123_open_refuted.
