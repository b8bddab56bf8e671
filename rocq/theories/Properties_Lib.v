(** Property theorems C55 (compiling a text). [X] is what the foreign libraries, the file system and the network answer;
    it is assumed that the library for regular expressions accepts the one in the standard library. *)
From Verif Require Import Base M_Names M_Html M_Render M_Types M_Diag M_Ast M_Value M_State M_Native M_Eval M_Std M_Lib.
From Verif Require Import S_Diag S_Scope S_Lib S_Example P_Std P_Lib.

(** The standard library compiles without an error or a warning: a context can always be made. *)
Theorem C55_context : forall X fuel level out_dir, x_regex X std_regex <> None -> 40 <= fuel ->
  exists s, context_new X std_papyri fuel level out_dir = Ok tt s /\ Fresh level out_dir s.
Proof. exact std_compiles. Qed.
Print Assumptions C55_context.

(** The result is the document, rendered, if compiling the text in a fresh context reports nothing; otherwise it is what was
    reported, all of it and in order, and that is something. *)
Theorem C55_result : forall X fuel text r, x_regex X std_regex <> None -> 40 <= fuel -> compile_str X fuel text = Ret r ->
  exists s0 h exports s es, Fresh LWarning None s0 /\ compile (no_network X) fuel (lit "<string>") text s0 = Ok (h, exports) s /\
    Reported s0 s es /\
    match r with
    | Document out => out = render true h /\ Forall (fun e => ~ Diagnostic e) es
    | Diagnostics ds => Selected Diagnostic es ds /\ ds <> []
    end.
Proof. exact compile_str_result. Qed.
Print Assumptions C55_result.

(** Compiling a source reports errors, but does not fail. *)
Theorem C55_compile_reports : forall X fuel path text s e s', compile X fuel path text s <> Err e s'.
Proof. exact compile_no_err. Qed.
Print Assumptions C55_compile_reports.

(** The fuel of the model decides only whether there is a result, not which one. *)
Theorem C55_fuel : forall X fuel fuel' text, fuel <= fuel' -> compile_str X fuel text <> OutOfFuel ->
  compile_str X fuel' text = compile_str X fuel text.
Proof. exact compile_str_fuel. Qed.
Print Assumptions C55_fuel.

(** Nothing depends on the network, *)
Theorem C55_no_network : forall X X' fuel text, SameButNetwork X X' -> compile_str X fuel text = compile_str X' fuel text.
Proof. exact compile_str_network. Qed.
Print Assumptions C55_no_network.
(** and no file is written: none is collected. *)
Theorem C55_no_output : forall X fuel path text l s s', Fresh l None s -> after (compile X fuel path text s) = Some s' -> st_out s' = None.
Proof. intros X fuel path text l s s' F H. eapply compile_no_output; [exact H|]. destruct F as (_ & _ & _ & _ & F). destruct (st_out s); [contradiction|reflexivity]. Qed.
Print Assumptions C55_no_output.

(** The documentation says that file access is disabled as well. It is not: the result depends on the contents of files. *)
Theorem C55_no_files_refuted : exists X X' fuel text, SameButFiles X X' /\ x_regex X std_regex <> None /\
  compile_str X fuel text = Ret (Document (lit "<p>alice</p>")) /\ compile_str X' fuel text = Ret (Document (lit "<p>bob</p>")).
Proof. exact compile_str_reads_files. Qed.
Print Assumptions C55_no_files_refuted.

Example C55_nonvacuous : x_regex (ex_files_X []) std_regex <> None /\
  compile_str (ex_files_X []) 50 (lit "@let(x=5) {$x *$x*}
  
<b>bold</b>") = Ret (Document (lit "<p>5 *5*</p><p><b>bold</b></p>")) /\
  compile_str (ex_files_X []) 50 (lit "$x</b>") = Ret (Diagnostics [SyntaxErr (M_Token.TokenUnmatched M_Token.CloseTag); NameErr (NoSuchVariable (lit "x"))]).
Proof. split; [discriminate|]. split; vm_compute; reflexivity. Qed.
