(** * Model of the build overlay (instrument/overlay/io.go, instrument/overlay/overlay.go).
    Unix: filepath.ToSlash and FromSlash are the identity. *)
From Coq Require Import Ascii String List Arith Bool Lia.
From Verif Require Import M_Str M_Version.
Import ListNotations.
Open Scope nat_scope.

Definition file := bytes.
(** A Go map from file to file: association list, one entry per key.  Ranging over it
    visits the entries in some order; where the code ranges over a map, the model takes
    the list of entries in the order they are visited. *)
Definition fmap := list (file * file).
Fixpoint get {V} (m : list (file * V)) (k : file) : option V :=
  match m with [] => None | (k', v) :: r => if eqs k' k then Some v else get r k end.
Fixpoint put {V} (m : list (file * V)) (k : file) (v : V) : list (file * V) :=
  match m with
  | [] => [(k, v)]
  | (k', v') :: r => if eqs k' k then (k', v) :: r else (k', v') :: put r k v
  end.
Definition keys {V} (m : list (file * V)) : list file := map fst m.

(** io.go:27-35 OverlayEntry. *)
Record entry := Entry { e_input : file; e_src_res : file; e_src : file; e_tgt_res : file; e_tgt : file }.

(** io.go:66-83 ParseGoOverlay.  [res]: ResolveAbsFile (135-141), [sym]: evalSymlinksAbs
    (150-156), which depends on the file system; [ord]: input.Replace in range order. *)
Definition parse (res sym : file -> file) (ord : fmap) : list entry :=
  map (fun '(s, t) => Entry s (res s) (sym (res s)) (res t) (sym (res t))) ord.

(** io.go:103-115 CanonicalReplace. *)
Definition canonical_step (result : fmap) (e : entry) : fmap :=
  let prefer := eqs (e_input e) (e_src e) in
  match get result (e_src e) with
  | Some _ => if prefer then put result (e_src e) (e_tgt e) else result
  | None => put result (e_src e) (e_tgt e)
  end.
Definition canonical_replace (entries : list entry) : fmap := fold_left canonical_step entries [].

(** "for source, target := range m { combined[source] = target }" *)
Definition put_all (combined : fmap) (ord : fmap) : fmap :=
  fold_left (fun m '(s, t) => put m s t) ord combined.

(** io.go:186-212 the closure resolve.  [resolved] and [visiting] are the captured maps;
    [fuel] bounds the recursion ([OutOfFuel] is proved impossible). *)
Inductive outcome := Terminal (f : file) | Cycle (p : list file) | OutOfFuel.
Fixpoint del (l : list file) (k : file) : list file :=
  match l with [] => [] | x :: r => if eqs x k then del r k else x :: del r k end.
Definition mem (l : list file) (k : file) : bool := existsb (fun x => eqs x k) l.
Fixpoint resolve (fuel : nat) (combined : fmap) (resolved : fmap) (visiting : list file)
  (source : file) (path : list file) : outcome * fmap * list file :=
  match fuel with
  | 0 => (OutOfFuel, resolved, visiting)
  | S n =>
      match get resolved source with
      | Some target => (Terminal target, resolved, visiting)
      | None =>
          if mem visiting source then (Cycle (path ++ [source]), resolved, visiting)
          else
            match get combined source with
            | None => (Terminal source, resolved, visiting)
            | Some target =>
                match resolve n combined resolved (source :: visiting) target (path ++ [source]) with
                | (Terminal terminal, resolved, visiting) =>
                    (Terminal terminal, put resolved source terminal, del visiting source)
                | (other, resolved, visiting) => (other, resolved, del visiting source)
                end
            end
      end
  end.

(** sort.Strings, as insertion sort. *)
Fixpoint insert_str (x : file) (l : list file) : list file :=
  match l with [] => [x] | y :: r => if str_lt y x then y :: insert_str x r else x :: y :: r end.
Definition sort_strings (l : list file) : list file := fold_right insert_str [] l.

(** io.go:217-221. *)
Fixpoint resolve_keys (combined : fmap) (resolved : fmap) (visiting : list file) (ks : list file) : list file + fmap :=
  match ks with
  | [] => inr resolved
  | k :: r =>
      match resolve (S (length combined)) combined resolved visiting k [] with
      | (Terminal _, resolved, visiting) => resolve_keys combined resolved visiting r
      | (Cycle p, _, _) => inl p
      | (OutOfFuel, _, _) => inl []
      end
  end.
(** io.go:166-223 ComposeGoOverlays after the two CanonicalReplace calls; the arguments
    are their results, in range order.  [inl p]: the error, naming the path p. *)
Definition compose (ord_caller ord_generated : fmap) : list file + fmap :=
  let combined := put_all (put_all [] ord_caller) ord_generated in
  resolve_keys combined [] [] (sort_strings (keys combined)).

(** io.go:119-132 ProjectOntoCallerSources. *)
Definition project (entries : list entry) (composed : fmap) : fmap :=
  fold_left (fun m e => match get m (e_src e) with Some t => put m (e_src_res e) t | None => m end) entries composed.

(** ** The in-memory overlay (overlay.go) *)
(** overlay.go:17-22 FileOverlay. *)
Record foverlay := FO { fo_file : file; fo_content : bytes; fo_has : bool }.
Definition ovl := list (file * foverlay).
(** overlay.go:41-54; [key]: absFileKey (33-40). *)
Definition override_file (key : file -> file) (o : ovl) (f t : file) : ovl := put o (key f) (FO (key t) [] false).
Definition override_content (key : file -> file) (o : ovl) (f : file) (c : bytes) : ovl := put o (key f) (FO [] c true).
(** overlay.go:80-98 Read, 100-117 ReadBytes; [disk]: os.ReadFile, None is an error. *)
Definition read (key : file -> file) (disk : file -> option bytes) (o : ovl) (f : file) : option (bool * bytes) :=
  match get o (key f) with
  | Some fo =>
      if fo_has fo then Some (true, fo_content fo)
      else
        let f := match fo_file fo with [] => f | _ => fo_file fo end in
        match disk f with Some c => Some (false, c) | None => None end
  | None => match disk f with Some c => Some (false, c) | None => None end
  end.
(** overlay.go:60-78 Size; os.Stat on a file gives the length of what os.ReadFile reads. *)
Definition size (key : file -> file) (disk : file -> option bytes) (o : ovl) (f : file) : option nat :=
  match get o (key f) with
  | Some fo =>
      if fo_has fo then Some (length (fo_content fo))
      else
        let f := match fo_file fo with [] => f | _ => fo_file fo end in
        match disk f with Some c => Some (length c) | None => None end
  | None => match disk f with Some c => Some (length c) | None => None end
  end.

(** overlay.go:131-148 getPathMapping. *)
Fixpoint path_mapping (path : file) (mappings : list (bytes * bytes)) : file :=
  match mappings with
  | [] => path
  | (from, to) :: r =>
      if negb (has_prefix path from) then path_mapping path r
      else
        match skipn (length from) path with
        | [] => to
        | c :: rest => if eqc c "/"%char then to ++ c :: rest else path_mapping path r
        end
  end.
(** support/fileutil/path.go:40-43 RebaseAbsPath, i.e. filepath.Join(root, path).
    Simplification: the lexical cleaning of Join is only the treatment of the slash
    between the two, so the model is right for root and path that are already clean and
    differ from "/". *)
Definition rebase (root path : file) : file :=
  root ++ match path with
          | [] => []
          | c :: _ => if eqc c "/"%char then path else "/"%char :: path
          end.
(** overlay.go:150-184 MakeGoOverlay: the Replace map, and the files written in order.
    [header f]: patch.FmtLineDirective(f, 1) and a newline, or empty. *)
Definition make_step (root : file) (mappings : list (bytes * bytes)) (header : file -> bytes)
  (st : fmap * list (file * bytes)) (fo : file * foverlay) : fmap * list (file * bytes) :=
  let '(f, o) := fo in
  let '(replace, writes) := st in
  if fo_has o then
    let w := rebase root (path_mapping f mappings) in
    (put replace f w, put writes w (header f ++ fo_content o))
  else
    match fo_file o with
    | [] => (replace, writes)
    | t => (put replace f t, writes)
    end.
Definition make_go_overlay (root : file) (mappings : list (bytes * bytes)) (header : file -> bytes)
  (ord : ovl) : fmap * list (file * bytes) :=
  fold_left (make_step root mappings header) ord ([], []).
