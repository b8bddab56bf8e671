(** Specification for C55: what compiling a text reports and depends on. *)
From Verif Require Import Base M_Names M_Html M_Types M_Diag M_Value M_State M_Native S_Diag.

(** Between the two states exactly [es] was reported, in this order. *)
Definition Reported (s s' : st) (es : list papyri_error) : Prop :=
  st_sink s' = fold_left sink_do (List.map Report es) (st_sink s).
(** [AlreadyReported] stands for an error that has been reported before: it is neither an error nor a warning. *)
Definition Diagnostic (e : papyri_error) : Prop := is_error e \/ is_warning e.

(** A context as it is before the first document: nothing reported, no module loaded, no unique id given out, and no
    output collected; outputs are collected if there is an output directory. *)
Definition Fresh (l : level) (out_dir : option str) (s : st) : Prop :=
  st_sink s = sink_new l /\ st_mods s = [] /\ st_uids s = [] /\ st_stack s = [] /\
  match out_dir, st_out s with
  | Some d, Some o => M_Path.base_path o = d /\ M_Path.out_v o = []
  | None, None => True
  | _, _ => False
  end.

(** The same but for the network *)
Definition SameButNetwork (X X' : externals) : Prop :=
  x_checks X = x_checks X' /\ x_deunicode X = x_deunicode X' /\ x_lower X = x_lower X' /\ x_upper X = x_upper X' /\ x_regex X = x_regex X' /\
  x_captures X = x_captures X' /\ x_captures_iter X = x_captures_iter X' /\ x_is_match X = x_is_match X' /\
  x_find_count X = x_find_count X' /\ x_split X = x_split X' /\ x_decode X = x_decode X' /\ x_html_parse X = x_html_parse X' /\
  x_syntect X = x_syntect X' /\ x_read X = x_read X' /\ x_canonicalize X = x_canonicalize X' /\ x_list_dir X = x_list_dir X'.
(** The same but for the contents of files *)
Definition SameButFiles (X X' : externals) : Prop :=
  x_checks X = x_checks X' /\ x_deunicode X = x_deunicode X' /\ x_lower X = x_lower X' /\ x_upper X = x_upper X' /\ x_regex X = x_regex X' /\
  x_captures X = x_captures X' /\ x_captures_iter X = x_captures_iter X' /\ x_is_match X = x_is_match X' /\
  x_find_count X = x_find_count X' /\ x_split X = x_split X' /\ x_decode X = x_decode X' /\ x_html_parse X = x_html_parse X' /\
  x_syntect X = x_syntect X' /\ x_fetch X = x_fetch X' /\ x_canonicalize X = x_canonicalize X' /\ x_list_dir X = x_list_dir X'.

(** The only regular expression made when the standard library is compiled, for the pattern $w/ of the function page *)
Definition std_regex : str := lit "^(?s:(.+?)/)$".
