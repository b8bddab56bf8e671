(** Proofs about markup: its syntax tree. *)
From Verif Require Import Base BaseFacts M_Text M_Names M_TagInfo M_TextSubs M_Token M_Tokenizer M_TokenText M_Types M_Diag M_Ast.
From Verif Require Import S_Front P_Tokenizer P_Escape S_TextSubs P_TextSubs S_Grammar S_Prose P_Prose P_ProseLex S_Markup P_Markup1.

(** ** Syntax trees of pieces *)
Inductive ValParts : str -> list template_part -> Prop :=
| vp_end : ValParts [] []
| vp_char c v ps : ValParts v ps -> ValParts (c :: v) (TPChar c :: ps)
| vp_word w v ps : ValParts v ps -> ValParts (w ++ v) (TPLit w :: ps)
| vp_space v ps : ValParts v ps -> ValParts (32%N :: v) (TPWhitespace :: ps).
Inductive AttrNodes : list (str * str) -> list tag_attr -> Prop :=
| an_end : AttrNodes [] []
| an_more n v ps l r : LowerName (lit "_") n -> ~ In n (List.map fst l) -> ValParts v ps -> AttrNodes l r ->
    AttrNodes ((n, v) :: l) (TAttr n false (Some (ETemplate ps)) :: r).
Definition GapNode (n : node) : Prop := n = AWhitespace \/ n = AParagraphBreak.
Inductive RunNodes : list piece -> list node -> Prop :=
| rn_end : RunNodes [] []
| rn_char c ps ns : RunNodes ps ns -> RunNodes (Char c :: ps) (AChar c :: ns)
| rn_word w ps ns : Letters w -> RunNodes ps ns -> RunNodes (List.map Char w ++ ps) (AText w :: ns)
| rn_space ps ns : RunNodes ps ns -> RunNodes (Char 32%N :: ps) (AWhitespace :: ns)
| rn_elem p e ps ns : ElNode p e -> Inline p -> RunNodes ps ns -> RunNodes (p :: ps) (AExpr e :: ns)
with ElsNodes : list piece -> list node -> Prop :=
| en_end : ElsNodes [] []
| en_gap n ps ns : GapNode n -> ElsNodes ps ns -> ElsNodes ps (n :: ns)
| en_more p e ps ns : ElNode p e -> ElsNodes ps ns -> ElsNodes (p :: ps) (AExpr e :: ns)
with ElNode : piece -> expr -> Prop :=
| ed_void n attrs a : In n void_tags -> AttrNodes attrs a -> ElNode (Elem n attrs []) (ETag (TNLit n) a [])
| ed_inline n attrs a c ns : LowerName [] n -> InlineTag n -> AttrNodes attrs a -> RunNodes c ns -> NoWhiteEnds c ->
    ElNode (Elem n attrs c) (ETag (TNLit n) a ns)
| ed_holds n attrs a c ns : LowerName [] n -> Holds n c -> AttrNodes attrs a -> ElsNodes c ns -> ElNode (Elem n attrs c) (ETag (TNLit n) a ns).
Inductive PageNodes : bool -> list piece -> list node -> Prop :=
| pg_end after : PageNodes after [] []
| pg_gap after n ps ns : GapNode n -> PageNodes (match n with AParagraphBreak => false | _ => after end) ps ns -> PageNodes after ps (n :: ns)
| pg_block after p e ps ns : ElNode p e -> Block p -> PageNodes false ps ns -> PageNodes after (p :: ps) (AExpr e :: ns)
| pg_par c cs ps ns : c <> [] -> NoWhiteEnds c -> RunNodes c cs -> PageNodes true ps ns -> PageNodes false (Elem (lit "p") [] c :: ps) (cs ++ ns).
Scheme run_mut := Minimality for Run Sort Prop with els_mut := Minimality for Elements Sort Prop with el_mut := Minimality for Element Sort Prop.
Combined Scheme markup_mut from run_mut, els_mut, el_mut.

Ltac no_letter L := exfalso; let A := fresh in let B := fresh in destruct L as [[A B] | [A B]]; vm_compute in A, B; first [now apply A | now apply B].
(** ** Names *)
Lemma lower_ident others n : LowerName others n -> (forall d, In d others -> d = 95%N) ->
  exists c l, n = c :: l /\ (97 <= c <= 122)%N /\ is_ident_start c = true /\ Forall (fun d => is_ident_cont d = true) l.
Proof.
  intros (c & l & -> & Hc & F) O. exists c, l. split; [reflexivity|]. split; [exact Hc|].
  assert (L : forall d, (97 <= d <= 122)%N -> is_ascii_alphabetic d = true).
  { intros d Hd. unfold is_ascii_alphabetic, is_ascii_lower, in_range. apply orb_true_iff. left. apply andb_true_iff. rewrite !N.leb_le. exact Hd. }
  split; [unfold is_ident_start; now rewrite (L c Hc)|]. eapply Forall_impl; [|exact F]. intros d [Hd | [Hd | Hd]]; unfold is_ident_cont, is_ascii_alphanumeric.
  - now rewrite (L d Hd).
  - assert (is_ascii_digit d = true) as ->; [|now rewrite orb_true_r]. unfold is_ascii_digit, in_range. apply andb_true_iff. rewrite !N.leb_le. exact Hd.
  - rewrite (O d Hd). reflexivity.
Qed.
Lemma lower_kind c l : (97 <= c <= 122)%N -> ident_kind (c :: l) = Name.
Proof.
  intros H. unfold ident_kind.
  assert (E : forall s d r, lit s = d :: r -> ~ (97 <= d <= 122)%N -> str_eqb (c :: l) (lit s) = false).
  { intros s d r E N. destruct (str_eqb (c :: l) (lit s)) eqn:Q; [|reflexivity]. apply str_eqb_eq in Q. rewrite E in Q. injection Q as -> _. contradiction. }
  rewrite (E "True"%string _ _ eq_refl) by (intros [X _]; vm_compute in X; now apply X). rewrite (E "False"%string _ _ eq_refl) by (intros [X _]; vm_compute in X; now apply X). rewrite (E "_"%string _ _ eq_refl) by (intros [X _]; vm_compute in X; now apply X). reflexivity.
Qed.
Lemma lowered_lower others n : LowerName others n -> (forall d, In d others -> d = 95%N) -> lowered n = n.
Proof.
  intros (c & l & -> & Hc & F) O. unfold lowered.
  assert (G : Forall (fun d => (if ((65 <=? d) && (d <=? 90))%N then (d + 32)%N else d) = d) (c :: l)).
  { constructor.
    - destruct (N.leb_spec 65 c), (N.leb_spec c 90); cbn [andb]; lia.
    - eapply Forall_impl; [|exact F]. intros d H. assert ((97 <= d <= 122)%N \/ (48 <= d <= 57)%N \/ d = 95%N) as H'.
      { destruct H as [H | [H | H]]; [now left|right; left; exact H|right; right; now apply O]. }
      destruct (N.leb_spec 65 d), (N.leb_spec d 90); cbn [andb]; lia. }
  induction G as [|d r E G IH]; [reflexivity|]. cbn [List.map]. now rewrite E, IH.
Qed.
Lemma letter_ident c : Letter c -> is_ident_start c = true /\ is_ident_cont c = true.
Proof.
  intros H. assert (is_ascii_alphabetic c = true) as A.
  { unfold is_ascii_alphabetic, is_ascii_lower, is_ascii_upper, in_range. apply orb_true_iff. rewrite !andb_true_iff, !N.leb_le. exact H. }
  unfold is_ident_start, is_ident_cont, is_ascii_alphanumeric. now rewrite A.
Qed.

(** ** Tokens with their kinds *)
Definition One (k : token_kind) (text : str) (l : list token) : Prop := exists t, l = [t] /\ Is k t /\ tk_text t = text.
Lemma reading_one text (B : str -> Prop) k : text <> [] -> (forall rest, B rest -> next_token (text ++ rest) = Ret (blen text, k, None)) ->
  (forall d, set_quote_dir k d = k) -> Lexeme k text -> k <> Comment -> text <> lit "?" -> Reading text B (One k text).
Proof.
  intros N T Q L C M. eapply reading_weaken; [apply (reading_token text B k N T)| |].
  - intros d. rewrite Q. now split.
  - auto.
  - intros l (t & d & -> & K & E). rewrite Q in K. now exists t.
Qed.
Lemma reading_name n others : LowerName others n -> (forall d, In d others -> d = 95%N) -> Reading n NoIdent (One Name n).
Proof.
  intros L O. destruct (lower_ident _ _ L O) as (c & l & -> & Hc & S & F). apply reading_one; try discriminate.
  - intros rest N. rewrite <- (lower_kind c l Hc). now apply next_ident.
  - reflexivity.
  - constructor. right. left. exact Hc.
  - intros E. injection E as -> _. discriminate S.
Qed.
Definition Any (rest : str) : Prop := True.
Lemma reading_langle : Reading (lit "<") (fun rest => exists c r, rest = c :: r /\ is_ident_start c = true) (One LAngle (lit "<")).
Proof.
  apply reading_one; try discriminate; try reflexivity.
  - intros rest (c & r & -> & S).
    assert (starts_with (lit "<!--") (60%N :: c :: r) = false) as E.
    { unfold starts_with. change (lit "<!--") with (60%N :: 33%N :: lit "--"). cbn [strip_prefix]. rewrite N.eqb_refl.
      destruct (N.eqb_spec 33 c) as [<-|]; [discriminate S|reflexivity]. }
    assert ((c_of "/" =? c)%N = false) as E2 by (destruct (N.eqb_spec (c_of "/") c) as [<-|]; [discriminate S|reflexivity]).
    assert (next_token (60%N :: c :: r) = if starts_with (lit "<!--") (60%N :: c :: r) then
        match find_sub (lit "-->") (skipn 4 (60%N :: c :: r)) with
        | Some (content, _) => Ret (blen content + 7, Comment, None)
        | None => Ret (blen (60%N :: c :: r), Comment, None)
        end
      else if (c_of "/" =? c)%N then 
        let t2 := r in
        if next_is is_ident_start t2 then
          let t3 := List.tl t2 in
          let ident_len := 1 + scan_while is_ident_cont t3 in
          if next_is (N.eqb (c_of ">")) (drop_while is_ident_cont t3) then Ret (3 + ident_len, CloseTag, None)
          else Ret (2 + ident_len, RawText, Some TagCloseMalformed)
        else if starts_with (lit "</>") (60%N :: c :: r) then Ret (3, CloseTag, None)
        else Ret (2, RawText, Some TagCloseMalformed)
      else Ret (1, LAngle, None)) as T by reflexivity.
    rewrite E, E2 in T. exact T.
  - constructor. cbn. intuition discriminate.
Qed.
Ltac simple_token := apply reading_one; [discriminate|intros rest _; reflexivity|reflexivity|constructor; cbn; intuition discriminate|discriminate|discriminate].
Lemma reading_rangle : Reading (lit ">") Any (One RAngle (lit ">")).
Proof. simple_token. Qed.
Lemma reading_equals : Reading (lit "=") Any (One Equals (lit "=")).
Proof. simple_token. Qed.
Lemma reading_quote : Reading (lit """") Any (fun l => exists t d, l = [t] /\ Is (Quote QDouble d) t).
Proof.
  eapply reading_weaken; [apply (reading_token (lit """") Any (Quote QDouble QLeft))| |].
  - discriminate.
  - intros rest _. reflexivity.
  - intros d. split; [|split; discriminate]. constructor. cbn. intuition discriminate.
  - auto.
  - intros l (t & d & -> & K & E). exists t, d. auto.
Qed.
Definition NoWhite (rest : str) : Prop := forall c r, rest = c :: r -> is_ascii_whitespace c = false.
Definition gap_kind (g : str) : token_kind := if 2 <=? line_feeds g then Newline else Whitespace.
Lemma reading_gap g : Blank g -> g <> [] -> Reading g NoWhite (One (gap_kind g) g).
Proof.
  intros B Ng. assert (A : Forall (fun c => is_ascii_whitespace c = true) g) by (eapply Forall_impl; [|exact B]; intros c; apply white_iff).
  apply reading_one; [exact Ng| | | | |].
  - intros rest Nr. destruct g as [|c g]; [now contradiction Ng|]. inversion A as [|? ? Wc A']; subst. unfold next_token. cbn [app]. cbv zeta.
    assert (E35 : (c =? c_of "#")%N = false) by (destruct (N.eqb_spec c (c_of "#")) as [->|]; [discriminate Wc|reflexivity]).
    rewrite E35, Wc. unfold scan_while. rewrite (take_all _ _ _ A' Nr).
    assert (B1 : 1 + blen g = blen (c :: g)) by (cbn [blen]; now rewrite (utf8_len_ascii c) by now apply ws_ascii).
    rewrite B1. rewrite (prefix_app (c :: g) rest : prefix_str (c :: g ++ rest) _ = _). rewrite breaks_count. reflexivity.
  - intros d. unfold gap_kind. now destruct (2 <=? line_feeds g).
  - unfold gap_kind. constructor. destruct (2 <=? line_feeds g); cbn; intuition discriminate.
  - unfold gap_kind. destruct (2 <=? line_feeds g); discriminate.
  - intros ->. inversion A; subst. discriminate.
Qed.
Lemma reading_close n : LowerName [] n -> Reading (lit "</" ++ n ++ lit ">") Any (One CloseTag (lit "</" ++ n ++ lit ">")).
Proof.
  intros L. destruct (lower_ident _ _ L) as (c & l & -> & Hc & S & F); [now intros d []|]. apply reading_one; try discriminate; try reflexivity.
  - intros rest _. unfold next_token. rewrite <- !app_assoc. cbn [app lit map list_ascii_of_string]. cbv zeta.
    cbn. rewrite S.
    assert (T : take_while is_ident_cont (l ++ 62%N :: rest) = l) by (apply take_all; [exact F|now intros ? ? [= <- <-]]).
    assert (D : drop_while is_ident_cont (l ++ 62%N :: rest) = 62%N :: rest).
    { clear - F. induction F as [|d l H F IH]; [reflexivity|]. cbn [app drop_while]. now rewrite H. }
    rewrite D. unfold scan_while. rewrite T. cbn. f_equal. f_equal. f_equal. rewrite blen_app. cbn [blen].
    rewrite (utf8_len_ascii c) by now apply ident_start_ascii. change (utf8_len 62) with 1. lia.
  - apply lex_close.
Qed.
Lemma reading_escape c e : Spelled c e -> Reading e Any (fun l => exists t, l = [t] /\ Is Escape t /\ EscapeMeans (tk_text t) c).
Proof.
  intros H. eapply reading_weaken; [apply (reading_one e Any Escape)| |].
  - destruct H; discriminate.
  - intros rest _. now apply (next_escape c).
  - reflexivity.
  - destruct (next_escape c e [] H) as (_ & L & _). exact L.
  - discriminate.
  - destruct H; discriminate.
  - auto.
  - intros l (t & -> & K & E). exists t. split; [reflexivity|]. split; [exact K|]. rewrite E. now apply (next_escape c e []).
Qed.
Lemma word_kind w : Letters w -> In (ident_kind w) [Boolean true; Boolean false; Name].
Proof.
  intros [N F]. unfold ident_kind. destruct (str_eqb w (lit "True")); [cbn; tauto|]. destruct (str_eqb w (lit "False")); [cbn; tauto|].
  destruct (str_eqb w (lit "_")) eqn:E; [|cbn; tauto]. apply str_eqb_eq in E. subst w. inversion F as [|? ? L _]; subst. no_letter L.
Qed.
Lemma reading_word w : Letters w -> Reading w NoIdent (fun l => exists t k, l = [t] /\ Is k t /\ tk_text t = w /\ In k [Boolean true; Boolean false; Name]).
Proof.
  intros Lw. pose proof (word_kind w Lw) as K. destruct Lw as [N F]. destruct w as [|c w]; [now contradiction N|].
  inversion F as [|? ? Hc F']; subst. eapply reading_weaken; [apply (reading_one (c :: w) NoIdent (ident_kind (c :: w)))| |].
  - discriminate.
  - intros rest Nr. apply next_ident; [now apply letter_ident| |exact Nr]. eapply Forall_impl; [|exact F']. intros d. apply letter_ident.
  - intros d. destruct K as [<- | [<- | [<- | []]]]; reflexivity.
  - destruct K as [<- | [<- | [<- | []]]]; [constructor; cbn; intuition discriminate..|]. constructor. destruct Hc; [right; now left|now left].
  - destruct K as [<- | [<- | [<- | []]]]; discriminate.
  - intros E. injection E as -> _. no_letter Hc.
  - auto.
  - intros l (t & -> & H & E). exists t, (ident_kind (c :: w)). auto.
Qed.
Lemma letters_same w : Letters w -> Substituted w w.
Proof.
  intros [_ F]. induction F as [|c w H F IH]; [constructor|]. constructor; [|exact IH]. intros p r D [rest E].
  assert (exists x y, p = x :: y /\ ~ Letter x) as (x & y & -> & N).
  { destruct D; eexists; eexists; (split; [reflexivity|]); intros X; no_letter X. }
  injection E as -> _. contradiction.
Qed.
