(** Specification for C82: which diagnostics are shown is a matter of presentation only. *)
From Verif Require Import Base M_Names M_Html M_Types M_Diag M_Value M_State M_Native M_Eval M_Cli S_Diag.

(** Two lists of diagnostics which show, each at its own level, what was reported *)
Definition Shows (l l' : level) (ds ds' : list papyri_error) : Prop :=
  exists reported, Selected (AtLevel l) reported ds /\ Selected (AtLevel l') reported ds'.

(** Two states of the compiler which differ only in the level of reporting, and in the diagnostics kept because of it *)
Record Alike (l l' : level) (s s' : st) : Prop := {
  al_heap : st_heap s = st_heap s'; al_stack : st_stack s = st_stack s'; al_exports : st_exports s = st_exports s';
  al_mods : st_mods s = st_mods s'; al_out : st_out s = st_out s'; al_uids : st_uids s = st_uids s';
  al_root : st_root s = st_root s'; al_trace : st_trace s = st_trace s';
  al_errors : sk_errors (st_sink s) = sk_errors (st_sink s'); al_warnings : sk_warnings (st_sink s) = sk_warnings (st_sink s');
  al_level : sk_level (st_sink s) = l; al_level' : sk_level (st_sink s') = l';
  al_shown : Shows l l' (sk_v (st_sink s)) (sk_v (st_sink s')) }.
(** Two runs of the compiler end the same way, and with states that are alike. *)
Inductive SameEnd {A} (l l' : level) : res A -> res A -> Prop :=
| same_ok a s s' : Alike l l' s s' -> SameEnd l l' (Ok a s) (Ok a s')
| same_err e s s' : Alike l l' s s' -> SameEnd l l' (Err e s) (Err e s')
| same_crash c : SameEnd l l' (Crash c) (Crash c)
| same_fuel : SameEnd l l' NoFuel NoFuel.

(** * The command line tool *)
(** The options are the same, but for --silent and --ignore-warnings. *)
Definition SameTask (O O' : options) : Prop :=
  o_version O = o_version O' /\ o_skip_unchanged O = o_skip_unchanged O' /\ o_text O = o_text O' /\ o_stdin O = o_stdin O' /\
  o_out_dir O = o_out_dir O' /\ o_allow_http O = o_allow_http O' /\ o_paths O = o_paths O'.
Definition level_of (O : options) : level := if o_ignore_warnings O then LError else LWarning.
(** Output to stdin is silent, too. *)
Definition Silent (O : options) : Prop := o_silent O = true \/ o_stdin O = true.
(** What two runs do is the same, but for the progress lines that a silent run leaves out, and for the diagnostics shown. *)
Inductive SameDeeds (O O' : options) : list event -> list event -> Prop :=
| deeds_none : SameDeeds O O' [] []
| deeds_said line a b : ~ Silent O -> ~ Silent O' -> SameDeeds O O' a b -> SameDeeds O O' (a ++ [Said line]) (b ++ [Said line])
| deeds_silent line a b : Silent O -> ~ Silent O' -> SameDeeds O O' a b -> SameDeeds O O' a (b ++ [Said line])
| deeds_silent' line a b : ~ Silent O -> Silent O' -> SameDeeds O O' a b -> SameDeeds O O' (a ++ [Said line]) b
| deeds_shown src ds ds' a b : Shows (level_of O) (level_of O') ds ds' -> SameDeeds O O' a b ->
    SameDeeds O O' (a ++ [Compiled src ds]) (b ++ [Compiled src ds'])
| deeds_other e a b : (forall line, e <> Said line) -> (forall src ds, e <> Compiled src ds) ->
    SameDeeds O O' a b -> SameDeeds O O' (a ++ [e]) (b ++ [e]).
(** A host which does not look at what is printed for the user *)
Definition Indifferent (H : host) (O O' : options) : Prop := forall a b, SameDeeds O O' a b ->
  h_X H a = h_X H b /\ h_mtime H a = h_mtime H b /\ h_write H a = h_write H b.
Inductive SameRun (O O' : options) : outcome (status * list event) -> outcome (status * list event) -> Prop :=
| same_run st a b : SameDeeds O O' a b -> SameRun O O' (Ret (st, a)) (Ret (st, b))
| same_starved : SameRun O O' OutOfFuel OutOfFuel.
