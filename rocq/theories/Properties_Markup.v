(** C68: markup that obeys the rules of HTML compiles to itself. *)
From Verif Require Import Base BaseFacts M_Names M_Text M_TextSubs M_Diag S_Grammar M_Parser M_State M_Native M_Html M_Render M_Eval M_Std M_Lib S_Lib S_Front S_Prose S_Markup S_Example.
From Verif Require Import S_Self P_Markup8 P_Markup9 P_MarkupLib P_Self.

(** Whatever was compiled before, compiling a page reports nothing, exports nothing, and gives the HTML of the page. *)
Theorem C68_compile_partial : forall X path text ps, (forall l, x_regex X (regex_text regex_escape l) <> None) -> Page false ps text ->
  exists N h, render true h = List.concat (List.map html_of ps) /\ forall fuel s, N <= fuel ->
    compile X fuel path text s = Ok (h, []) (set_heap (st_heap s ++ [Frame (Some (st_root s)) [] []]) s).
Proof. exact compile_page. Qed.
Print Assumptions C68_compile_partial.

Theorem C68_compile_str_partial : forall X text ps, x_regex X std_regex <> None -> (forall l, x_regex X (regex_text regex_escape l) <> None) -> Page false ps text ->
  exists N, forall fuel, N <= fuel -> compile_str X fuel text = Ret (Document (List.concat (List.map html_of ps))).
Proof. exact compile_str_page. Qed.
Print Assumptions C68_compile_str_partial.

(** So every page of blocks that obey the rules is the output for some text. *)
Theorem C68_every_page_partial : forall ps, Forall (fun p => Fine p /\ Block p) ps ->
  exists text, Page false ps text /\ forall X, x_regex X std_regex <> None -> (forall l, x_regex X (regex_text regex_escape l) <> None) ->
    exists N, forall fuel, N <= fuel -> compile_str X fuel text = Ret (Document (List.concat (List.map html_of ps))).
Proof.
  intros ps F. destruct (page_written ps F) as [text P]. exists text. split; [exact P|]. intros X Rs Rx. now apply compile_str_page.
Qed.
Print Assumptions C68_every_page_partial.

(** A page that needs no escape sequences, as it is rendered, is its own source; so compiling what was compiled changes nothing. *)
Theorem C68_itself : forall X ps, x_regex X std_regex <> None -> (forall l, x_regex X (regex_text regex_escape l) <> None) ->
  Forall (fun p => Fine p /\ Block p /\ SimplePiece p) ps ->
  exists N, forall fuel, N <= fuel ->
    compile_str X fuel (List.concat (List.map html_of ps)) = Ret (Document (List.concat (List.map html_of ps))).
Proof. intros X ps Rs Rx F. apply compile_str_page; auto. now apply page_self. Qed.
Print Assumptions C68_itself.

(** Without [NoWhiteEnds] the claim fails: an escaped space at the end of an element is lost. *)
Theorem C68_white_refuted : exists e s, Spelled 32%N e /\ Run [Char 97%N; Char 32%N] (lit "a" ++ e) /\
  s = lit "<b>a" ++ e ++ lit "</b>" /\
  match compile (ex_files_X []) 20 (lit "f") s ex_start with Ok (h, _) _ => render true h = lit "<p><b>a</b></p>" | _ => False end.
Proof.
  exists (lit "\ "), (lit "<b>a\ </b>"). assert (S : Spelled 32%N (lit "\ ")) by (apply (sp_plain 32%N); [cbn; intuition discriminate|discriminate]).
  split; [exact S|]. split; [|split; [reflexivity|vm_compute; reflexivity]].
  apply (run_word (lit "a") [Char 32%N] (lit "\ ")).
  - split; [discriminate|]. constructor; [first [left; split; vm_compute; discriminate|right; split; vm_compute; discriminate]|constructor].
  - intros c r [= <- _] [L | L]; vm_compute in L; destruct L as [L M]; first [now apply L|now apply M].
  - apply (run_char 32%N (lit "\ ") [] []); [exact S|constructor].
Qed.
Print Assumptions C68_white_refuted.

(** [<ul class="a\&b"><li>x <b>y</b></li> <li></li></ul>], and below it [So <br>it \x3c]. *)
Definition c68_text : str := lit "<ul class=""a\&b""><li>x <b>y</b></li> <li></li></ul>" ++ [10%N] ++ lit "So <br>it \x3c".
Definition c68_page : list piece :=
  [Elem (lit "ul") [(lit "class", lit "a&b")] [Elem (lit "li") [] [Char 120%N; Char 32%N; Elem (lit "b") [] [Char 121%N]]; Elem (lit "li") [] []];
   Elem (lit "p") [] (List.map Char (lit "So ") ++ [Elem (lit "br") [] []] ++ List.map Char (lit "it <"))].
Example C68_nonvacuous : Page false c68_page c68_text /\ (forall l, x_regex (ex_files_X []) (regex_text regex_escape l) <> None) /\
  List.concat (List.map html_of c68_page) = lit "<ul class=""a&amp;b""><li>x <b>y</b></li><li></li></ul><p>So <br>it &lt;</p>".
Proof.
  split; [|split; [discriminate|vm_compute; reflexivity]].
  assert (A : Attributes [(lit "class", lit "a&b")] (lit " class=""a\&b""")).
  { apply (att_more (lit "class") (lit "a&b") (lit "a\&b") [] []); [lower|intros []| |constructor].
    apply (val_word (lit "a") (lit "&b") (lit "\&b")); [letters|no_more|]. apply (val_char 38%N (lit "\&") (lit "b") (lit "b")); [apply sp_plain; [vm_compute; intuition discriminate|discriminate]|].
    apply (val_word (lit "b") [] []); [letters|discriminate|constructor]. }
  assert (B : Element (Elem (lit "b") [] [Char 121%N]) (lit "<b>y</b>")).
  { apply (el_inline (lit "b") [] [] [Char 121%N] (lit "y")); [lower|inline_tag|constructor| |ends].
    apply (run_word (lit "y") [] []); [letters|discriminate|constructor]. }
  assert (L1 : Element (Elem (lit "li") [] [Char 120%N; Char 32%N; Elem (lit "b") [] [Char 121%N]]) (lit "<li>x <b>y</b></li>")).
  { apply (el_inline (lit "li") [] [] _ (lit "x <b>y</b>")); [lower|inline_tag|constructor| |ends].
    apply (run_word (lit "x") _ (lit " <b>y</b>")); [letters|no_more|]. apply run_space; [no_more|].
    apply (run_elem _ (lit "<b>y</b>") [] []); [exact B|not_block|constructor]. }
  assert (L2 : Element (Elem (lit "li") [] []) (lit "<li></li>")).
  { apply (el_inline (lit "li") [] [] [] []); [lower|inline_tag|constructor|constructor|ends]. }
  apply (page_block false [] (Elem (lit "ul") _ _) (lit "<ul class=""a\&b""><li>x <b>y</b></li> <li></li></ul>") _ ([10%N] ++ lit "So <br>it \x3c")).
  - constructor.
  - apply (el_holds (lit "ul") _ (lit " class=""a\&b""") _ (lit "<li>x <b>y</b></li> <li></li>")); [lower| |exact A|].
    + eapply holds_items; [unfold item_tags; do 4 apply in_cons; apply in_eq|vm_compute; tauto|]. repeat (constructor; [eexists; eexists; eexists; split; [reflexivity|now left]|]). constructor.
    + apply (els_more [] _ (lit "<li>x <b>y</b></li>") _ (lit " <li></li>")); [constructor|exact L1|].
      apply (els_more (lit " ") _ (lit "<li></li>") [] []); [constructor; [vm_compute; tauto|constructor]|exact L2|apply els_end; constructor].
  - constructor. vm_compute. tauto.
  - apply (page_par false [10%N] _ (lit "So <br>it \x3c") [] []); [constructor; [vm_compute; tauto|constructor]|discriminate|discriminate|ends| |apply page_end; constructor].
    apply (run_word (lit "So") _ (lit " <br>it \x3c")); [letters|no_more|]. apply run_space; [no_more|].
    apply (run_elem _ (lit "<br>") _ (lit "it \x3c")); [apply (el_void (lit "br") [] []); [vm_compute; tauto|constructor]|not_block|].
    apply (run_word (lit "it") [Char 32%N; Char 60%N] (lit " \x3c")); [letters|no_more|]. apply run_space; [no_more|].
    apply (run_char 60%N (lit "\x3c") [] []); [|constructor]. apply (sp_code 60%N 120%N 2 (lit "3c")); [constructor|reflexivity| |reflexivity|intros [H _]; vm_compute in H; now apply H].
    apply (HV_snoc [51%N] 3%N 99%N 12%N); [|apply (Hex_low 12%N); lia]. apply (HV_snoc [] 0%N 51%N 3%N); [constructor|apply (Hex_num 3%N); lia].
Qed.

(** [<ul class="a b"><li>x <b>y</b></li></ul>] *)
Definition c68_simple : piece :=
  Elem (lit "ul") [(lit "class", lit "a b")] [Elem (lit "li") [] [Char 120%N; Char 32%N; Elem (lit "b") [] [Char 121%N]]].
Example C68_nonvacuous_itself : Fine c68_simple /\ Block c68_simple /\ SimplePiece c68_simple /\
  html_of c68_simple = lit "<ul class=""a b""><li>x <b>y</b></li></ul>".
Proof.
  split; [|split; [apply block_tag; vm_compute; tauto|split; [|vm_compute; reflexivity]]].
  - apply fine_holds; [lower| |constructor; [repeat constructor; intros []|constructor; [lower|constructor]]|].
    + eapply holds_items; [unfold item_tags; do 4 apply in_cons; apply in_eq|vm_compute; tauto|]. repeat (constructor; [eexists; eexists; eexists; split; [reflexivity|now left]|]). constructor.
    + constructor; [|constructor]. apply fine_inline; [lower|inline_tag|constructor; constructor| | |ends].
      * constructor; [constructor|]. constructor; [constructor|]. constructor; [|constructor].
        apply fine_inline; [lower|inline_tag|constructor; constructor|constructor; constructor| |ends]. constructor; [not_block|constructor].
      * repeat (constructor; [not_block|]). constructor.
  - assert (B : SimplePiece (Elem (lit "b") [] [Char 121%N])) by (constructor; [constructor|constructor; [constructor; left; left; split; vm_compute; discriminate|constructor]|apply no_double; reflexivity]).
    constructor; [|constructor; [|constructor]|apply no_double; reflexivity].
    + constructor; [|constructor]. split; [vm_compute; intuition discriminate|]. split.
      * constructor; [left; left; split; vm_compute; discriminate|]. constructor; [now right|]. constructor; [left; left; split; vm_compute; discriminate|constructor].
      * apply no_double; reflexivity.
    + constructor; [constructor| |apply no_double; reflexivity]. constructor; [constructor; left; left; split; vm_compute; discriminate|]. constructor; [constructor; now right|]. constructor; [exact B|constructor].
Qed.
