(** Property C66. *)
From Verif Require Import Base BaseFacts M_SourceFile S_Util P_Util M_Token M_Tokenizer M_TokenText M_Diag M_Ast M_Parser M_ParserPos S_Pos S_PosOrder P_ParserPos P_ParserWhere P_ParserOrder.

(** C66. Without the positions, the positioned parser is the parser of the other properties. *)
Theorem C66_same : forall decode regex_ok src text,
  parse decode regex_ok src text = obind (parse_pos decode regex_ok src text) (fun r => Ret (fst r, List.map fst (snd r))).
Proof. exact parse_erase. Qed.
Print Assumptions C66_same.

(** Each diagnostic is at a token of the text that it is about, or at the end of the text if it is about the end. *)
Theorem C66_where : forall decode regex_ok src text nodes ds, parse_pos decode regex_ok src text = Ret (nodes, ds) ->
  exists all errs, tokenize text false = Ret (all, errs) /\
    forall e p, In (e, p) ds -> (AtEnd e /\ p = blen text) \/ exists tok, In tok all /\ tk_start tok = p /\ About e tok.
Proof. exact parse_where. Qed.
Print Assumptions C66_where.

(** A diagnostic about two places, such as a name given twice or an argument after one that must be last, is at the later place. *)
Theorem C66_order : forall decode regex_ok src text nodes ds, parse_pos decode regex_ok src text = Ret (nodes, ds) ->
  exists all errs, tokenize text false = Ret (all, errs) /\ forall e p, In (e, p) ds -> Preceded all e p.
Proof. exact parse_order. Qed.
Print Assumptions C66_order.
Example C66_order_nonvacuous : exists nodes,
  parse_pos (fun s => s) (fun _ => true) (lit "a.papyri") (lit "<a b=1 b=2></a> @f(x=1, x=2). @match $v { (k=$x, k=$y) -> ., [*$x, *$y] -> . }") =
    Ret (nodes, [(SyntaxErr (TagDuplicateAttr (lit "b")), 7); (SyntaxErr (ArgDuplicateName (lit "x")), 24);
                 (SyntaxErr (PatternDuplicateName (lit "k")), 51); (SyntaxErr PatternMultipleSpreads, 68)]).
Proof. eexists. vm_compute. reflexivity. Qed.

(** So in an ASCII text the line and column printed are those of that token, or of the end of the text. *)
Theorem C66_line_col_partial : forall decode regex_ok src text nodes ds e p,
  Forall (fun c => (c < 128)%N) text -> parse_pos decode regex_ok src text = Ret (nodes, ds) -> In (e, p) ds ->
  exists before after line col, text = before ++ after /\ index_to_line_col text p = Ret (line, col) /\ LineCol before line col /\
    ((AtEnd e /\ after = []) \/ exists tok rest, About e tok /\ tk_text tok <> [] /\ after = tk_text tok ++ rest).
Proof. exact parse_line_col. Qed.
Print Assumptions C66_line_col_partial.

(** Brackets that match are reported as unmatched, and the text as ended, when there is an error between them. *)
Theorem C66_unmatched_refuted : exists nodes ds,
  parse_pos (fun s => s) (fun _ => true) (lit "a.papyri") (lit "[,] and more") = Ret (nodes, ds) /\
  In (SyntaxErr (TokenUnmatched LSqb), 0) ds /\ In (SyntaxErr (TokenUnmatched RSqb), 2) ds /\
  In (SyntaxErr (TokenExpectedWasEOF RSqb), 12) ds.
Proof. eexists. eexists. split; [vm_compute; reflexivity|]. cbn. auto 8. Qed.
Print Assumptions C66_unmatched_refuted.

(** An invalid type is reported at its first word, even if that is a valid one. *)
Theorem C66_group_type_refuted : exists before word after nodes ds,
  parse_pos (fun s => s) (fun _ => true) (lit "a.papyri") (before ++ lit "int " ++ word ++ after) = Ret (nodes, ds) /\
  In (SyntaxErr TokenInvalidGroupType, blen before) ds /\ ~ In (SyntaxErr TokenInvalidGroupType, blen (before ++ lit "int ")) ds.
Proof.
  exists (lit "@fn g($x: "), (lit "foo"), (lit ") $y -> $x"). eexists. eexists. split; [vm_compute; reflexivity|]. split; [now left|].
  cbn. intuition discriminate.
Qed.
Print Assumptions C66_group_type_refuted.

(** A pattern with a type is reported at the type instead of at its start. *)
Theorem C66_typed_refuted : exists before after nodes ds,
  parse_pos (fun s => s) (fun _ => true) (lit "a.papyri") (before ++ lit "*$y: " ++ after) = Ret (nodes, ds) /\
  ds = [(SyntaxErr PatternMultipleSpreads, blen (before ++ lit "*$y: "))].
Proof. exists (lit "@match $v { [*$x: int, "), (lit "str] -> . }"). eexists. eexists. split; vm_compute; reflexivity. Qed.
Print Assumptions C66_typed_refuted.

Example C66_nonvacuous : exists nodes,
  parse_pos (fun s => s) (fun _ => true) (lit "a.papyri") (lit "@let(x=1, 2) $x and \n &foo; {") =
    Ret (nodes, [(SyntaxErr ArgPositionalAfterNamed, 10); (SyntaxErr DeclPositionalArg, 10); (SyntaxErr TokenInvalidEntity, 23); (SyntaxErr (TokenUnmatched LBrace), 29)]).
Proof. eexists. vm_compute. reflexivity. Qed.
