(** C61. What the functions of the standard library do: calling functions, and listings. *)
From Verif Require Import S_Html S_Sequence S_Call S_Std S_Expr.
From Verif Require Import Base BaseFacts M_Text M_Html M_Types M_Diag M_Value M_State M_Native M_Eval M_Lib P_StdLib P_StdCall P_StdPage S_Lib S_Example.

(** [@function::call(@f, x, y, ..., n=v, ...) content]: calling [f] with these arguments and this content. The arguments are given
    in that order, those by position first, and the result is that of the call of [f]. *)
Theorem C61_call : exists f, PredefinedIn (lit "function") (lit "call") f /\
  func_sig f = FSig [FParam (lit "_f") false TFunction None] (Some (FParam (lit "_args") false TAny None)) []
                    (Some (FParam (lit "kwargs") false TAny None)) (FParam (lit "content") false TAny None) /\
  forall X bs g xs ns c t src s v s', Later s ->
  Bound bs [(lit "_f", VFunc g); (lit "_args", VList xs); (lit "kwargs", VDict ns); (lit "content", c)] ->
  let given := List.map GPos xs ++ List.map (fun nv => GNamed (fst nv) (snd nv)) ns in
  Calls X f bs t src s v s' <->
  exists m s1, call_with g true given c (entered 1 bs s) = Ok m (entered 1 bs s) /\ Calls X g m t (lit "<stdlib>") (entered 1 bs s) v s1 /\
    s' = left_scope s1.
Proof.
  exists f_call. split; [apply predefined_in; reflexivity|]. split; [reflexivity|]. intros X bs g xs ns c t src s v s' Hl B given.
  apply call_calls; try (rewrite B; reflexivity). destruct (later_heap s Hl) as [more ->]. rewrite app_length. apply Nat.lt_lt_add_r. now apply Nat.ltb_lt.
Qed.
Print Assumptions C61_call.
(** What was declared implicit by the caller is not passed on: an implicit parameter of [f] that is not given has its default value,
    and if it has none the call fails. *)
Theorem C61_call_implicit : forall bs s p v, Later s -> from_scope (entered 1 bs s) p v <-> p_default p = Some v.
Proof. exact call_implicits. Qed.
Print Assumptions C61_call_implicit.

(** A listing: what the [code] function makes of the same text as a block (see C40_code), in a [<pre>] element *)
Theorem C61_code_block : exists f, Predefined (lit "code_block") f /\
  func_sig f = FSig [] None
    [(lit "language", FParam (lit "language") true (TOptional TStr) (Some UNIT));
     (lit "first_line_no", FParam (lit "first_line_no") false TInt (Some (VInt 1)))] None (FParam (lit "v") false TStr None) /\
  forall X call load bs m lang no text s t src a c s1 w, Later s ->
  let language := match lang with None => UNIT | Some l => VStr l end in
  Bound bs [(lit "language", language); (lit "first_line_no", VInt no); (lit "v", VStr text)] ->
  Bound m [(lit "language", language); (lit "code_block", VBool true); (lit "first_line_no", VInt no); (lit "source", VStr text)] ->
  evaluate_native_func X call load FCode m src s = Ok (VHtml (HTag (lit "code") a c)) s1 ->
  coerce t (VHtml (HTag (lit "pre") [(lit "class", Some (lit "panel listing"))] (HTag (lit "code") a c))) = inl w ->
  exists k new, forall fuel, k <= fuel -> e_call (evals_n X fuel) f bs t src s = Ok w (set_heap (st_heap s ++ new) s1).
Proof.
  exists f_code_block. split; [apply predefined; reflexivity|]. split; [reflexivity|].
  intros X call load bs m lang no text s t src a c s1 w Hl language B Bm E C. exists 6. eapply code_block_gives; eassumption.
Qed.
Print Assumptions C61_code_block.

(** A page: title, links to the style and the script at [web_root], what is given for the head, and the header, content and footer *)
Theorem C61_page : exists f, Predefined (lit "page") f /\
  func_sig f = FSig [] None
    [(lit "title", FParam (lit "title") false TStr None);
     (lit "web_root", FParam (lit "web_root") false TStr (Some (VStr (lit "https://kaya3.github.io/papyri"))));
     (lit "head", FParam (lit "head") false THtml (Some UNIT)); (lit "header", FParam (lit "header") false THtml (Some UNIT));
     (lit "footer", FParam (lit "footer") false THtml (Some UNIT))] None (FParam (lit "content") false TBlock None) /\
  forall X bs t r vh va vb vc gh ga gb gc, FindsSlash X std_regex r ->
  Bound bs [(lit "title", VStr t); (lit "web_root", VStr r); (lit "head", vh); (lit "header", va); (lit "footer", vb); (lit "content", vc)] ->
  ForHead vh gh -> Blocks va ga -> Blocks vb gb -> Blocks vc gc ->
  exists title, Trimmed (html_text t) title /\ Gives X f bs (VHtml (page_html title (without_slash r) gh ga gc gb va vb)).
Proof.
  exists f_page. split; [apply predefined; reflexivity|]. split; [reflexivity|].
  intros X bs t r vh va vb vc gh ga gb gc F B (Hh & Nh & Ah) Ba Bb Bc. apply page_gives with (vh := vh) (vc := vc); auto; rewrite B; reflexivity.
Qed.
Print Assumptions C61_page.

(** In documents: *)
Example C61_call_nonvacuous :
  compile_str (ex_files_X []) 60 (lit "@fn f($_x, **$kw: str dict) $c -> { $_x $kw::y $c } @function::call($f, `a`, y=`b`) d")
    = Ret (M_Lib.Document (lit "<p>a b d</p>")) /\
  compile_str (ex_files_X []) 60 (lit "@implicit(x=`a`)... @fn f($x: @implicit str) $c -> { $x $c } @f e @function::call($f) d")
    = Ret (Diagnostics [RuntimeErr (ParamMissingImplicit (lit "x"))]) /\
  compile_str (ex_files_X []) 60 (lit "@code_block(first_line_no=7) `a`")
    = Ret (M_Lib.Document (lit "<pre class=""panel listing""><code><span class=""line"" data-line-no=""7"">a</span>" ++ [10]%N ++ lit "</code></pre>")).
Proof.
  split; [vm_compute; reflexivity|]. split; [vm_compute; reflexivity|vm_compute; reflexivity].
Qed.
(** Removing the slash; a library that finds it in some texts and not in others; contents of a page. (A text that is only a slash is
    not changed, so that the links of such a page begin with two slashes.) *)
Example C61_page_nonvacuous :
  without_slash (lit "a/b/") = lit "a/b" /\ without_slash (lit "a") = lit "a" /\ without_slash (lit "/") = lit "/" /\
  FindsSlash (ex_files_X []) std_regex (lit "a") /\
  ForHead (VHtml (HTag (lit "base") [] HEmpty)) (HTag (lit "base") [] HEmpty) /\ ForHead UNIT HEmpty /\
  Blocks UNIT HEmpty /\ Blocks (VHtml (HTag (lit "p") [] (HText (lit "ab")))) (HTag (lit "p") [] (HText (lit "ab"))) /\
  compile_str (ex_files_X []) 90 (lit "@page(title=`t`, web_root=`u`, footer=@b y, head=<base>) <p>c</>")
    = Ret (M_Lib.Document (lit "<!DOCTYPE html>" ++ [10]%N ++ lit "<html><head><title>t</title><meta charset=""utf-8""><link rel=""stylesheet"" type=""text/css"" href=""u/papyri.css""><base></head><body><article><p>c</p></article><footer><p><b>y</b></p></footer><script type=""text/javascript"" src=""u/papyri.js""></script></body></html>")).
Proof.
  do 4 (split; [reflexivity|]). split; [|split; [|split; [|split]]].
  - split; [reflexivity|]. split; [repeat constructor|]. repeat constructor. exists (lit "base"), [], HEmpty. split; [reflexivity|]. now left.
  - split; [reflexivity|]. split; constructor.
  - split; [reflexivity|]. split; [constructor|]. split; [left; reflexivity|constructor].
  - split; [reflexivity|]. split; [repeat constructor; discriminate|]. split; [|constructor; [constructor 1; [discriminate|apply mem_In; reflexivity]|constructor]].
    right. split; [do 2 eexists; split; [reflexivity|exact I]|]. exists (EClose (lit "p")).
    eexists (removelast (events (HTag (lit "p") [] (HText (lit "ab"))))). split; [reflexivity|exact I].
  - vm_compute. reflexivity.
Qed.
