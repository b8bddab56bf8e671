(** Property theorems C72: every document a program compiles to is well-formed HTML and can be read back. See S_Session.v for
    sessions and what is assumed of the environment (in mode [Plain]: only that HTML parsed by the library for it has plain
    names, and void elements without content), and S_Html.v for the reader. *)
From Verif Require Import Base M_Text M_Names M_Html M_Render M_Path M_Types M_Diag S_Html M_Value M_State M_HtmlParse M_Native M_Eval M_Std M_Lib.
From Verif Require Import S_Scope S_Safe S_Session S_Example P_Html P_SafeProps P_Lib.

(** Whatever the program, reading the text of the document gives the document: nothing in a text or an attribute passes for
    a tag, every element ends where it should, and all names are names. *)
Theorem C72_text : forall X fuel path text s h exports s', Session Plain s -> Environment Plain X ->
  compile X fuel path text s = Ok (h, exports) s' -> PlainDoc h /\ read_html (render true h) = Some (doc h).
Proof. intros X fuel path text s h exports s' S E H. pose proof (document_plain _ _ _ _ _ _ _ _ S E H) as P. split; [exact P|now apply read_html_render]. Qed.
Print Assumptions C72_text.
(** So it is for a file, *)
Theorem C72_file : forall X fuel path s h exports s', Session Plain s -> Environment Plain X ->
  load_uncached X (evals_n X fuel) path s = Ok (h, exports) s' -> PlainDoc h /\ read_html (render true h) = Some (doc h).
Proof. intros X fuel path s h exports s' S E H. pose proof (file_plain _ _ _ _ _ _ _ S E H) as P. split; [exact P|now apply read_html_render]. Qed.
Print Assumptions C72_file.
(** for the files a program writes, *)
Theorem C72_collected : forall s o path h, Session Plain s -> st_out s = Some o -> In (path, h) (out_v o) ->
  PlainDoc h /\ read_html (render true h) = Some (doc h).
Proof. intros s o path h S H I0. pose proof (collected_plain _ _ _ _ S H I0) as P. split; [exact P|now apply read_html_render]. Qed.
Print Assumptions C72_collected.
(** and for the function of the library which compiles a text. *)
Theorem C72_compile_str : forall X fuel text out, Environment Plain X -> x_regex X (lit "^(?s:(.+?)/)$") <> None ->
  compile_str X fuel text = Ret (Document out) -> exists h, PlainDoc h /\ out = render true h /\ read_html out = Some (doc h).
Proof. exact compile_str_plain. Qed.
Print Assumptions C72_compile_str.

(** A program with computed names of a tag and of attributes, and texts with special characters. *)
Definition C72_sample : str := lit "@let(t=`section`, u=`</section><br>`, d=@dict::new(title=`<b>""`).) {<$t lang=`a>b` **$d>$u & x<br></>}".
Example C72_nonvacuous : Environment Plain (ex_files_X []) /\ x_regex (ex_files_X []) (lit "^(?s:(.+?)/)$") <> None /\
  compile_str (ex_files_X []) 60 C72_sample =
    Ret (Document (lit "<section lang=""a&gt;b"" title=""&lt;b&gt;&quot;""><p>&lt;/section&gt;&lt;br&gt; &amp; x<br></p></section>")).
Proof.
  split; [|split; [discriminate|vm_compute; reflexivity]]. intro s. constructor. repeat constructor.
Qed.
