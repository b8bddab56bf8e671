(** Property theorems C74: from a text to the document it stands for. *)
From Verif Require Import Base M_Names M_TagInfo M_Html M_Render M_Types M_Token M_Diag M_Ast M_Value M_State M_Native M_Eval M_Std M_Lib.
From Verif Require Import S_Front S_Lex S_Parser S_Grammar S_Redundant S_Expr S_Example P_Escape M_Parser S_Lib P_Std P_Lib P_Whole M_Tokenizer P_LexStrip.

(** C74. If [compile_str] gives a document for a text, then the text is read as tokens by the lexical grammar (C69), the tokens
    without comments and white space between them are a document of the grammar (C43, C54), the nodes of that make the HTML by
    the rules of evaluation (C62), from the start of the standard library and without anything being reported, and the
    document is that HTML, rendered (C21-C23). *)
Theorem C74_sound : forall X text fuel out s0, x_regex X std_regex <> None ->
  (forall ps, x_regex X (regex_text regex_escape ps) <> None) ->
  context_new (no_network X) std_papyri 40 LWarning None = Ok tt s0 ->
  compile_str X fuel text = Ret (M_Lib.Document out) ->
  exists all toks ns h s1, Lexes 0 QLeft text all [] /\ Stripped all toks /\
    S_Grammar.Document (lit "<string>") (x_decode X) regex_escape toks ns /\
    Makes (no_network X) (RequireBlock n_p) None ns (begun s0) h s1 /\ st_sink s1 = st_sink s0 /\ out = render true h.
Proof. exact text_sound. Qed.
Print Assumptions C74_sound.

(** Conversely every such text compiles to that document, if no question mark follows one of the words any, none, html, block and
    inline or another question mark. (With one, there may be a warning that it is redundant, and then no document.) *)
Theorem C74_complete : forall X text s0 all toks ns h s1, x_regex X std_regex <> None ->
  (forall ps, x_regex X (regex_text regex_escape ps) <> None) ->
  context_new (no_network X) std_papyri 40 LWarning None = Ok tt s0 ->
  Lexes 0 QLeft text all [] -> Stripped all toks -> ~ Redundant toks ->
  S_Grammar.Document (lit "<string>") (x_decode X) regex_escape toks ns ->
  Makes (no_network X) (RequireBlock n_p) None ns (begun s0) h s1 -> st_sink s1 = st_sink s0 ->
  exists fuel, compile_str X fuel text = Ret (M_Lib.Document (render true h)).
Proof. exact text_complete. Qed.
Print Assumptions C74_complete.

Definition C74_text : str := lit "@let(x=[1, 2]) {<i>@list::len $x</i> is \x32} <!-- done -->".
Example C74_nonvacuous : let X := ex_files_X [] in x_regex X std_regex <> None /\
  (forall ps, x_regex X (regex_text regex_escape ps) <> None) /\
  (exists s0, context_new (no_network X) std_papyri 40 LWarning None = Ok tt s0) /\
  compile_str X 50 C74_text = Ret (M_Lib.Document (lit "<p><i>2</i> is 2</p>")).
Proof.
  cbv zeta. split; [discriminate|]. split; [intro; discriminate|].
  split; [destruct (start_exists (ex_files_X [])) as (s & E & _); [discriminate|now exists s]|]. vm_compute. reflexivity.
Qed.
(** A text with a question mark that is not redundant *)
Definition C74_optional : str := lit "@let(f=@fn($_x: str?) . -> a) {x}".
Example C74_complete_nonvacuous : exists all toks, Lexes 0 QLeft C74_optional all [] /\ Stripped all toks /\ ~ Redundant toks /\
  (exists t, In t toks /\ tk_text t = lit "?") /\ compile_str (ex_files_X []) 50 C74_optional = Ret (M_Lib.Document (lit "<p>x</p>")).
Proof.
  destruct (tokenize C74_optional true) as [[toks [|e errs]]| |] eqn:T; try (vm_compute in T; discriminate T).
  destruct (tokenize_stripped_sound _ _ _ T) as (all & L & S). exists all, toks. split; [exact L|]. split; [exact S|].
  clear all L S. vm_compute in T. injection T as <-. split; [|split; [eexists; split; [do 10 right; left; reflexivity|reflexivity]|vm_compute; reflexivity]].
  intros (b & w & ws & m & a & E & I & W & M).
  repeat (destruct b as [|? b]; cbn [app] in E;
    [injection E as <- E; vm_compute in I;
     repeat (destruct I as [I|I]; [try discriminate I|]); try contradiction;
     (destruct ws as [|x ws]; cbn [app] in E; [injection E as <- E; cbv in M; discriminate M|injection E as <- E; destruct (W _ (or_introl eq_refl)) as [Z|Z]; discriminate Z])
    |injection E as _ E]).
  destruct b; discriminate E.
Qed.
