(** * Vocabulary of C32: when a patch block can be taken out again. *)
From Coq Require Import Ascii String List Arith Bool Lia.
From Verif Require Import M_Str M_Patch P_Str.
Import ListNotations.
Open Scope nat_scope.

(** The texts of one name's marks, without the comment signs. *)
Definition free (n t : bytes) : Prop :=
  ~ occurs (#"<begin " ++ n ++ #">") t /\ ~ occurs (#"<end " ++ n ++ #">") t /\ ~ occurs (#"<next-line-original " ++ n ++ #">") t.

(** Where a group of edits goes: the first position and the length of the text replaced. *)
Definition start_of (s : state) (g : group) : nat :=
  if g_replace g then g_offset g
  else if negb (s_after s) || (g_seq g <? s_seq s) then g_offset g else g_insert_end g.
(** 0 for an insertion. *)
Definition len_of (g : group) : nat := if g_replace g then length (g_old g) else 0.

(** [tame n src s]: the edits [s] that a block named [n] asks for on the text [src] are
    such that they can be taken out again: no text carries a mark of that name; an inserted
    text has no "old" comment; a replaced text holds no comment end; the edits lie in the text,
    later ones after earlier ones, and do not overlap; a copied function is put after a final
    line break that the other edits leave alone. *)
Record tame (n src : bytes) (s : state) : Prop := {
  t_src : free n src;
  t_text : forall g, In g (s_groups s) -> free n (combine (s_after s) g) /\ ~ occurs #"/*old:" (combine (s_after s) g);
  t_old : forall g, In g (s_groups s) -> g_replace g = true -> ~ occurs #"*/" (g_old g);
  t_range : forall g, In g (s_groups s) -> start_of s g + len_of g <= length src;
  t_order : forall g g', In g (s_groups s) -> In g' (s_groups s) -> g_seq g < g_seq g' -> start_of s g + len_of g <= start_of s g';
  t_app : s_append s <> [] -> free n (s_append s) /\ ~ occurs #"/*old:" (s_append s) /\
          has_suffix src [newline] = true /\ forall g, In g (s_groups s) -> start_of s g + len_of g < length src }.
(** The edits without the directive. *)
Definition without_directive (s : state) : state :=
  {| s_cursor := s_cursor s; s_seq := s_seq s; s_after := s_after s; s_groups := s_groups s; s_append := s_append s; s_directive := None |}.
(** A replaced directive ends its line wherever it stands in the (otherwise patched) text,
    and its replacement is one line. *)
Definition directive_ok (n src : bytes) (s : state) : Prop :=
  forall old new, s_directive s = Some (old, new) ->
  ~ occurs annot_close old /\ ~ In newline new /\
  forall x y, apply_edits n src (without_directive s) = x ++ old ++ y -> y = [] \/ exists y', y = newline :: y'.
