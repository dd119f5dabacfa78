(** * The JSON endpoints of the test explorer and the coverage page
    (support/netutil/http.go, cmd/xgo/test-explorer/{run_session,poll,main,open}.go,
    cmd/xgo/coverage/serve/serve.go) *)
From Coq Require Import Ascii String List Arith Bool Lia.
From Verif Require Import M_Str M_Version.
Import ListNotations.
Open Scope nat_scope.
Open Scope list_scope.

(** ** net/http's ResponseWriter: headers can be set until the status is written; Write writes
    status 200 first *)
Record writer := { headers : list (bytes * bytes); wrote : option (nat * list (bytes * bytes)); body : bytes }.
Definition new_writer : writer := {| headers := []; wrote := None; body := [] |}.
Definition set_header (w : writer) (k v : bytes) : writer := {| headers := (k, v) :: filter (fun kv => negb (eqs (fst kv) k)) (headers w); wrote := wrote w; body := body w |}.
Definition write_header (w : writer) (code : nat) : writer := match wrote w with Some _ => w | None => {| headers := headers w; wrote := Some (code, headers w); body := body w |} end.
Definition write (w : writer) (data : bytes) : writer := let w := write_header w 200 in {| headers := headers w; wrote := wrote w; body := body w ++ data |}.
(** what the client receives: status, headers, body *)
Definition received (w : writer) : nat * list (bytes * bytes) * bytes := match wrote (write_header w 200) with Some (c, h) => (c, h, body w) | None => (200, headers w, body w) end.
Definition header (h : list (bytes * bytes)) (k : bytes) : option bytes := option_map snd (find (fun kv => eqs (fst kv) k) h).

(** An error: one of ParamErrorf (http.go:12-30), whose status is 400, or another. *)
Inductive failure := Param (msg : bytes) | Other (msg : bytes).
Definition message (f : failure) : bytes := match f with Param m | Other m => m end.
(** How a handler ends: it returns data and perhaps an error, panics with an error (as a nil pointer
    or an index does), or panics with another value, which prints as given. *)
Inductive ending (A : Type) := Returns (data : option A) (err : option failure) | PanicsError (e : failure) | PanicsValue (printed : bytes).
Arguments Returns {A}. Arguments PanicsError {A}. Arguments PanicsValue {A}.
Section Handle.
  Variable A : Type.
  (** encoding/json.Marshal of the data; nil is null *)
  Variable marshal : A -> failure + bytes.
  Definition json (d : option A) : failure + bytes := match d with None => inr #"null" | Some a => marshal a end.
  (** http.go:76-80 *)
  Definition SetCORSHeaders (w : writer) : writer := set_header (set_header w #"Access-Control-Allow-Origin" #"*") #"Access-Control-Allow-Headers" #"*".
  (** http.go:32-74; [h] is the end of the handler; None: it is not called. A panic leaves
      respData at nil (35, 70), and one with an error leaves err at nil as well: 43 assigns the
      variable e of the if. *)
  Definition HandleJSON (w : writer) (method : bytes) (h : ending A) : writer :=
    if eqs method #"OPTIONS" then w
    else
      let '(respData, err) := match h with Returns d e => (d, e) | PanicsError _ => (None, None) | PanicsValue v => (None, Some (Other (#"panic: " ++ v))) end in
      let '(jsonData, err) := match err with
                              | None => match json respData with inl e => ([], Some e) | inr j => (j, None) end
                              | Some e => ([], Some e) end in
      match err with
      | Some e => let w := write_header w (match e with Param _ => 400 | Other _ => 500 end) in
                  write (set_header w #"Content-Type" #"text/plain") (message e)
      | None => write (set_header w #"Content-Type" #"application/json") jsonData
      end.
  (** every endpoint (poll.go:21-22 and the like) *)
  Definition serve (method : bytes) (h : ending A) : nat * list (bytes * bytes) * bytes := received (HandleJSON (SetCORSHeaders new_writer) method h).
End Handle.
Arguments HandleJSON {A}. Arguments serve {A}.

(** ** The handlers. What a handler does besides answering: *)
Inductive effect := Configured | SessionStarted (debug trace : bool) | SessionPolled (id : bytes) | SessionDestroyed (id : bytes) | FileRead (file name : bytes) | EditorOpened (file : bytes) (line : nat).
Definition run (A : Type) := (list effect * ending A)%type.
Definition fail {A} (m : bytes) : run A := ([], Returns None (Some (Param m))).
Definition nil_pointer {A} : run A := ([], PanicsError (Other #"runtime error: invalid memory address or nil pointer dereference")).
(** A request as parseBody leaves it (main.go:569-581): an error of reading or of the JSON; nil, for a body that is
    missing, empty or null; a value. *)
Inductive parsed (R : Type) := BadBody (e : failure) | Nil | Value (r : R).
Arguments BadBody {R}. Arguments Nil {R}. Arguments Value {R}.
(** run_session.go:20-34: an item, absent or with its file and whether its kind is that of a test case *)
Record start_request := { item : option (bytes * bool); debug : bool; trace : bool }.
Section Handlers.
  Variable A : Type.
  Variable answer : A.
  (** what fails of getTestConfig, and of starting the run: nothing modelled further *)
  Variables config_error start_error : option failure.
  (** run_session.go:41-104. *)
  Definition session_start (b : parsed start_request) : run A :=
    match b with
    | BadBody e => ([], Returns None (Some e))
    | Nil => fail #"requires file"
    | Value r =>
        match item r with
        | None | Some ([], _) => fail #"requires file"
        | Some (_, is_case) =>
            if debug r && negb is_case then fail #"debug not supported"
            else let trace' := trace r && is_case in
            match config_error with
            | Some e => ([], Returns None (Some e))
            | None => match start_error with
                      | Some e => ([Configured], Returns None (Some e))
                      | None => ([Configured; SessionStarted (debug r) trace'], Returns (Some answer) None)
                      end
            end
        end
    end.
  (** sessions: those that exist *)
  Variable known : bytes -> bool.
  (** run_session.go:106-131 and poll.go:74-97; a request is its id *)
  Definition session_poll (b : parsed bytes) : run A :=
    match b with
    | BadBody e => ([], Returns None (Some e))
    | Nil => nil_pointer
    | Value [] => fail #"requires id"
    | Value id => if known id then ([SessionPolled id], Returns (Some answer) None)
                  else ([], Returns None (Some (Param (#"session " ++ id ++ #" does not exist or has been removed"))))
    end.
  (** run_session.go:133-151 and poll.go:99-118 *)
  Definition session_destroy (b : parsed bytes) : run A :=
    match b with
    | BadBody e => ([], Returns None (Some e))
    | Nil => nil_pointer
    | Value [] => fail #"requires id"
    | Value id => ([SessionDestroyed id], Returns None None)
    end.
  (** main.go:492-525 and getDetail, 775-809. [atoi]: strconv.Atoi; the request: its file and name;
      the query: file, name, line; [decls]: the test functions of a file with their text, or an error. *)
  Variable atoi : bytes -> option nat.
  Variable decls : bytes -> failure + list (bytes * A).
  Definition detail (b : parsed (bytes * bytes)) (qfile qname qline : bytes) : run A :=
    match b with
    | BadBody e => ([], Returns None (Some e))
    | Nil | Value _ =>
        let '(f, n) := match b with Value fn => fn | _ => ([], []) end in
        let file := match qfile with [] => f | _ => qfile end in
        let name := match qname with [] => n | _ => qname end in
        if negb (eqs qline []) && match atoi qline with None => true | Some _ => false end then fail #"line"
        else if eqs file [] then fail #"requires file"
        else if eqs name [] then fail #"requires name"
        else match decls file with
             | inl e => ([FileRead file name], Returns None (Some e))
             | inr ds => ([FileRead file name], match find (fun d => eqs (fst d) name) ds with
                                                | None => Returns None (Some (Param (#"not found: " ++ name)))
                                                | Some d => Returns (Some (snd d)) None
                                                end)
             end
    end.
  (** open.go:47-58 and 15-22; [opened]: what becomes of the editor's command *)
  Variable opened : bytes -> nat -> option failure.
  Definition open_file (file line : bytes) : run A :=
    let n := match atoi line with Some n => n | None => 0 end in
    ([EditorOpened file n], Returns None (opened file n)).
End Handlers.
