(** Property theorems C85: white space and comments added at the end of a text. *)
From Verif Require Import Base M_Token M_Tokenizer M_Diag M_State M_Native M_Parser M_Eval M_Lib S_Text S_Parser S_Lex S_Refill S_Trail S_Example P_LexStrip P_TrailText Properties_Refill.

(** C85. Take a text which is parsed without errors, does not end in white space or a comment, and has no ... in it. White space
    added at its end, with comments in it if one likes, does not change the syntax tree, nor the warnings. *)
Theorem C85_parse : forall decode regex_ok path text g lines blank toks errs nodes ds,
  Lexes 0 QLeft text toks errs -> EndsSolid toks -> NoDots toks -> Filled lines blank g ->
  parse decode regex_ok path text = Ret (nodes, ds) -> NoErrors ds ->
  parse decode regex_ok path (text ++ g) = Ret (nodes, ds).
Proof. exact trail_parse. Qed.
Print Assumptions C85_parse.

(** So it compiles to the same document, with the same exports, reports and effects, from whatever state. *)
Theorem C85_compile : forall X fuel path text g lines blank toks errs nodes ds s,
  Lexes 0 QLeft text toks errs -> EndsSolid toks -> NoDots toks -> Filled lines blank g ->
  parse_source X path text = Ret (nodes, ds) -> NoErrors ds ->
  compile X fuel path (text ++ g) s = compile X fuel path text s.
Proof.
  intros X fuel path text g lines blank toks errs nodes ds s L S D F P N. unfold compile, compile_source.
  unfold parse_source at 1. rewrite (C85_parse _ _ _ _ _ _ _ _ _ _ _ L S D F P N). now rewrite P.
Qed.
Print Assumptions C85_compile.

Theorem C85_library : forall X fuel text g lines blank toks errs nodes ds,
  Lexes 0 QLeft text toks errs -> EndsSolid toks -> NoDots toks -> Filled lines blank g ->
  parse_source X (lit "<string>") text = Ret (nodes, ds) -> NoErrors ds ->
  compile_str X fuel (text ++ g) = compile_str X fuel text.
Proof.
  intros X fuel text g lines blank toks errs nodes ds L S D F P N. unfold compile_str.
  destruct (context_new _ _ _ _ _) as [? s|? s| |]; try reflexivity. now rewrite (C85_compile (no_network X) _ _ _ _ _ _ _ _ _ _ s L S D F P N).
Qed.
Print Assumptions C85_library.

(** White space at the end may be exchanged for other white space, also a blank line for a space. *)
Theorem C85_exchange : forall X fuel path text g g' lines lines' blank blank' toks errs nodes ds s,
  Lexes 0 QLeft text toks errs -> EndsSolid toks -> NoDots toks -> Filled lines blank g -> Filled lines' blank' g' ->
  parse_source X path text = Ret (nodes, ds) -> NoErrors ds ->
  compile X fuel path (text ++ g) s = compile X fuel path (text ++ g') s.
Proof.
  intros X fuel path text g g' lines lines' blank blank' toks errs nodes ds s L S D F F' P N.
  now rewrite (C85_compile _ _ _ _ _ _ _ _ _ _ _ s L S D F P N), (C85_compile _ _ _ _ _ _ _ _ _ _ _ s L S D F' P N).
Qed.
Print Assumptions C85_exchange.

Definition C85_text : str := lit "@let(x = 1) <b>$x</b> [1, 2] ``two``".
Example C85_nonvacuous : exists toks nodes, Lexes 0 QLeft C85_text toks [] /\ EndsSolid toks /\ NoDots toks /\ Filled true false C84_g' /\
  parse_source (ex_files_X []) (lit "main") C85_text = Ret (nodes, []) /\ nodes <> [].
Proof.
  assert (exists toks, tokenize C85_text false = Ret (toks, []) /\ forallb (fun t => negb (kind_eqb (tk_kind t) Ellipsis)) toks = true /\
    forallb (fun t => negb (kind_eqb (tk_kind t) Comment || kind_eqb (tk_kind t) Whitespace || kind_eqb (tk_kind t) Newline)) (skipn (pred (length toks)) toks) = true) as (toks & T & D & S)
    by (eexists; split; [vm_compute; reflexivity|split; reflexivity]).
  assert (exists nodes, parse_source (ex_files_X []) (lit "main") C85_text = Ret (nodes, []) /\ nodes <> []) as (nodes & P & N) by (eexists; split; [vm_compute; reflexivity|discriminate]).
  exists toks, nodes. split; [exact (P_Lex.tokenize_sound _ _ _ T)|]. split; [|split; [|split; [exact C84_line_comment|exact (conj P N)]]]; clear T P N.
  - intros before t ->. rewrite app_length, Nat.add_1_r in S. cbn [pred] in S. rewrite skipn_app, skipn_all, Nat.sub_diag in S. cbn in S.
    destruct (tk_kind t); try discriminate; repeat split; discriminate.
  - intros t I K. rewrite forallb_forall in D. specialize (D t I). now rewrite K in D.
Qed.

(** Both provisos are needed. At the very end of the text, ... has no content, and @let may not be used without; with a line feed
    after it, it has: the error is gone. *)
Theorem C85_dots_matter : exists text toks nodes nodes', Lexes 0 QLeft text toks [] /\ EndsSolid toks /\ Filled false false [10%N] /\
  parse_source (ex_files_X []) (lit "main") text = Ret (nodes, [SyntaxErr LetInLiteral]) /\
  parse_source (ex_files_X []) (lit "main") (text ++ [10%N]) = Ret (nodes', []) /\ nodes <> nodes'.
Proof.
  exists (lit "@let(x = 1)..."). eexists _, _, _. split; [apply P_Lex.tokenize_sound; vm_compute; reflexivity|]. split.
  - intros before t E. do 8 (destruct before as [|? before]; cbn [app] in E; [discriminate E|injection E as _ E]). 
    destruct before as [|? before]; [|destruct before; discriminate E]. injection E as <-. repeat split; discriminate.
  - split; [|split; [vm_compute; reflexivity|split; [vm_compute; reflexivity|discriminate]]].
    apply filled_white; [discriminate|constructor; [unfold White; tauto|constructor]|]. split; [discriminate|]. intros (x & y & z & E). destruct x as [|? [|? x]]; destruct y; discriminate.
Qed.
Print Assumptions C85_dots_matter.
