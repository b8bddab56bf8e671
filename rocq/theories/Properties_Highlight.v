(** Property theorems C40 (syntax highlighting). *)
From Verif Require Import Base BaseFacts M_Text M_Names M_Int M_Html M_Token M_Tokenizer M_Diag M_Highlight S_Html S_Front S_Native S_Highlight
  M_TokenText S_TextSubs P_Html P_Tokenizer P_Front P_Escape P_Highlight S_Highlight2 P_Highlight2.

(** C40. Code in a language known to the classifier: whatever the classification of its lines into adjacent pieces. *)
Theorem C40_classified : forall syntect src language css gs,
  language <> lit "none" -> language <> lit "papyri" -> syntect language (lines src) = Some gs ->
  List.map chunks_text css = lines src -> Forall2 LineGiven css gs -> Forall (Forall ProperChunk) css ->
  exists out, syntax_highlight syntect src language = Ret (out, None) /\ Highlighted css out /\ List.map text_of out = lines src.
Proof.
  intros syntect src language css gs H1 H2 Hs Ht Hg Hp. unfold syntax_highlight.
  destruct (str_eqb language (lit "none")) eqn:E1; [apply str_eqb_eq in E1; congruence|].
  destruct (str_eqb language (lit "papyri")) eqn:E2; [apply str_eqb_eq in E2; congruence|].
  rewrite Hs, <- Ht. destruct (highlight_lines_spec css gs src Hg Hp) as (out & E & H). rewrite E. cbn [obind].
  exists out. split; [reflexivity|]. split; [exact H|]. apply lines_text, H.
Qed.
Print Assumptions C40_classified.
(** Papyri code (the highlighter ignores white space at its end). The only crashes are those of the tokenizer, see C15. *)
Theorem C40_papyri : forall syntect src toks errs, tokenize (trim_end src) false = Ret (toks, errs) ->
  exists cs ls out, syntax_highlight syntect src (lit "papyri") = Ret (out, None) /\
    PapyriChunks [] toks cs /\ ChunkLines cs ls /\ Highlighted ls out /\ join_lines (List.map text_of out) = trim_end src.
Proof.
  intros syntect src toks errs H. destruct (highlight_papyri_spec _ _ _ H) as (cs & ls & out & E & Hc & Hl & Ho).
  exists cs, ls, out. unfold syntax_highlight. cbn [str_eqb]. rewrite E. split; [reflexivity|]. repeat (split; [assumption|]).
  rewrite (lines_text _ _ (proj1 Ho)), (chunk_lines_text _ _ Hl), (papyri_chunks_text _ _ _ Hc).
  eapply tiles_concat, tokenize_tiles, H.
Qed.
Print Assumptions C40_papyri.
Theorem C40_papyri_total : forall syntect src,
  (forall before after, trim_end src = before ++ 92%N :: after -> GoodEscape after) ->
  exists out, syntax_highlight syntect src (lit "papyri") = Ret (out, None) /\ join_lines (List.map text_of out) = trim_end src.
Proof.
  intros syntect src H. destruct (no_crash _ false H) as (toks & errs & Et & _).
  destruct (C40_papyri syntect _ _ _ Et) as (cs & ls & out & E & _ & _ & _ & Ht). eauto.
Qed.
Print Assumptions C40_papyri_total.
(** Without a classification, nothing is marked; a warning tells that the language is unknown. *)
Theorem C40_plain : forall syntect src language,
  language = lit "none" \/ (language <> lit "papyri" /\ syntect language (lines src) = None) ->
  exists out w, syntax_highlight syntect src language = Ret (out, w) /\
    List.map marks out = List.map (List.map (fun c => Mark c [])) (lines src) /\ List.map text_of out = lines src /\
    (language <> lit "none" -> w = Some (HighlightLanguageUnknown language)).
Proof.
  intros syntect src language H.
  assert (E : List.map marks (no_highlighting src) = List.map (List.map (fun c => Mark c [])) (lines src) /\
              List.map text_of (no_highlighting src) = lines src).
  { unfold no_highlighting. rewrite !map_map. split; [apply map_ext, marks_text|].
    rewrite <- (map_id (lines src)) at 2. apply map_ext. intros s. rewrite text_marks, marks_text, map_map. apply map_id. }
  destruct E as [E1 E2]. unfold syntax_highlight. destruct (str_eqb language (lit "none")) eqn:En.
  - apply str_eqb_eq in En. exists (no_highlighting src), None. repeat (split; [assumption || reflexivity|]). congruence.
  - destruct H as [-> |[Hn Hs]]; [discriminate|]. destruct (str_eqb language (lit "papyri")) eqn:Ep; [apply str_eqb_eq in Ep; congruence|].
    rewrite Hs. exists (no_highlighting src), (Some (HighlightLanguageUnknown language)). auto.
Qed.
Print Assumptions C40_plain.
(** The links that are found are determined by the text. *)
Theorem C40_links_unique : forall s l l', Links s l -> Links s l' -> l = l'.
Proof. intros s l l' H. now apply links_unique. Qed.
Print Assumptions C40_links_unique.
(** Every line is made of plain text, marked pieces of text and links that lead where they say, in any language. *)
Theorem C40_elements : forall syntect src language ls w, syntax_highlight syntect src language = Ret (ls, w) ->
  Forall (fun h => CodeLine (events h)) ls.
Proof. exact highlight_elements. Qed.
Print Assumptions C40_elements.
(** Numbered lines. *)
Theorem C40_line_numbers : forall checks ls start, (forall i, i < length ls -> Int64 (start + Z.of_nat i)) ->
  exists out, enumerate_lines checks ls start = Ret out /\ events out = NumberedLines start ls /\
    text_of out = flat_map (fun h => text_of h ++ [10%N]) ls.
Proof.
  intros checks ls start H. unfold enumerate_lines. destruct (enumerate_ok checks start ls 0) as (out & -> & E); [exact H|].
  cbn [obind]. exists (from_iter out). split; [reflexivity|]. rewrite from_iter_events, E, Z.add_0_r. split; [reflexivity|].
  unfold text_of. rewrite from_iter_events, E, Z.add_0_r. clear. revert start. induction ls as [|h ls IH]; intros n; [reflexivity|].
  cbn [NumberedLines visible flat_map]. rewrite visible_app. cbn [visible]. rewrite IH, <- app_assoc. reflexivity.
Qed.
Print Assumptions C40_line_numbers.

(** A line with nested, mismatched and stray brackets, a comment with a link, and a definition. *)
Definition C40_sample : str := lit "@fn f($x) -> { $x ([}) ] ) # see https://a.b/c!
(".
Example C40_nonvacuous : exists toks errs out a b, tokenize (trim_end C40_sample) false = Ret (toks, errs) /\
  syntax_highlight_papyri C40_sample = Ret [a; b] /\ marks a ++ marks b = out /\
  nth_error out 5 = Some (Mark (c_of "(") (numbered HParenLeft (lit "1"))) /\
  nth_error out 8 = Some (Mark (c_of ")") (numbered HParenRight (lit "1"))) /\
  nth_error out 20 = Some (Mark (c_of "}") (class_attr HParenUnmatched)) /\
  nth_error out 23 = Some (Mark (c_of "]") (numbered HParenRight (lit "4"))) /\
  nth_error out 25 = Some (Mark (c_of ")") (numbered HParenRight (lit "3"))) /\
  nth_error out 4 = Some (Mark (c_of "f") (class_attr HNameDef)).
Proof. do 5 eexists. split; [vm_compute; reflexivity|]. split; [vm_compute; reflexivity|]. split; [reflexivity|]. repeat split; vm_compute; reflexivity. Qed.
(** Links in a comment. *)
Definition C40_line : list chunk := [(lit "f", HName); (lit "(", HParenLeft); (lit """http://x""", HString); (lit ")", HParenRight); (lit "// http:// https://y z", HComment)].
Example C40_nonvacuous_classified : Forall2 LineGiven [C40_line] [Some [(0, 1, HName); (1, 2, HParenLeft); (2, 12, HString); (12, 13, HParenRight); (13, 35, HComment)]] /\
  Forall ProperChunk C40_line /\ Links (lit "// http:// https://y z")
    (List.map inr (lit "// http:// ") ++ [inl (lit "https://y"); inr (c_of " "); inr (c_of "z")]).
Proof.
  split; [|split].
  - constructor; [|constructor]. unfold LineGiven, C40_line.
    apply (Cut_cons 0 (lit "f")), (Cut_cons 1 (lit "(")), (Cut_cons 2 (lit """http://x""")), (Cut_cons 12 (lit ")")), (Cut_cons 13 (lit "// http:// https://y z")).
    constructor.
  - unfold C40_line. repeat constructor; (exists (c_of "("), (c_of ")"); split; [reflexivity|constructor]).
  - assert (N : forall c s, url_len (c :: s) = None -> ~ UrlStart (c :: s)) by (intros; now apply url_len_none).
    cbn [List.map app lit]. repeat (apply L_char; [apply N; reflexivity|]).
    refine (L_url (lit "https") (lit "y") (lit " z") _ _ _ _ _ _); [now right|discriminate| | |].
    + repeat constructor; discriminate.
    + intros c t [= <- _] [H _]. discriminate.
    + repeat (apply L_char; [apply N; reflexivity|]). constructor.
Qed.
