(** Property theorems for the remaining native functions (C02, C37, C40, C52, C53, C59, C60). As in Properties_Native, [X] are
    the externals, [call] is how a call with bound parameters is evaluated, [load] is how a module is loaded and [bs] are
    the bound parameters. *)
From Verif Require Import Base BaseFacts M_Text M_Names M_Render M_Html S_Html P_Html M_Path M_Types M_Token M_Tokenizer M_Diag M_Ast M_Int M_Highlight M_Value M_State
  M_SourceFile M_Binder M_Native M_Eval S_Text P_Text S_Scope P_Scope S_Native P_Native P_NativeText P_NativeCalls S_Highlight P_Highlight S_Native2 P_Native2 S_Example Properties_Highlight Properties_Module Properties_Native.

(** C52. The length of a string is the number of bytes of its UTF-8 encoding. *)
Theorem C52_measures : forall X call load bs src s t, ngetm bs (lit "str") = Some (VStr t) ->
  evaluate_native_func X call load StrLen bs src s = Ok (VInt (Z.of_nat (length (flat_map utf8 t)))) s /\
  (exists b, evaluate_native_func X call load StrIsEmpty bs src s = Ok (VBool b) s /\ (b = true <-> t = [])) /\
  (exists b, evaluate_native_func X call load StrIsWhitespace bs src s = Ok (VBool b) s /\ (b = true <-> Forall AsciiSpace t)) /\
  (exists r, evaluate_native_func X call load StrTrim bs src s = Ok (VStr r) s /\ Trimmed t r).
Proof.
  intros X call load bs src s t H. destruct (call_str X call load bs src s t H) as (H1 & H2 & H3 & H4 & _).
  rewrite H1, H2, H3, H4, utf8_length. split; [reflexivity|]. split; [|split].
  - eexists. split; [reflexivity|]. destruct t; split; try reflexivity; discriminate.
  - eexists. split; [reflexivity|]. unfold is_whitespace. rewrite forallb_forall, Forall_forall.
    assert (E : forall c, is_ascii_whitespace c = true <-> AsciiSpace c).
    { intros c. unfold is_ascii_whitespace, AsciiSpace. rewrite !orb_true_iff, !N.eqb_eq. cbn. intuition congruence. }
    split; intros G c Hc; apply E; auto.
  - eexists. split; [reflexivity|]. apply trim_spec.
Qed.
Print Assumptions C52_measures.
(** Escaping a string gives a text that, read as HTML, is just the characters of the string. Changing the case is left to
    the standard library. *)
Theorem C52_escape : forall X call load bs src s t, ngetm bs (lit "str") = Some (VStr t) ->
  (exists r, evaluate_native_func X call load StrEscapeHtml bs src s = Ok (VStr r) s /\ read_html r = Some (List.map Chr t)) /\
  evaluate_native_func X call load StrLower bs src s = Ok (VStr (x_lower X t)) s /\
  evaluate_native_func X call load StrUpper bs src s = Ok (VStr (x_upper X t)) s.
Proof.
  intros X call load bs src s t H. destruct (call_str X call load bs src s t H) as (_ & _ & _ & _ & H1 & H2 & H3 & _).
  rewrite H1, H2, H3. split; [|split; reflexivity]. eexists. split; [reflexivity|].
  assert (P : PlainDoc (html_text t)) by (unfold html_text; repeat match goal with |- context [match ?x with _ => _ end] => destruct x end; constructor).
  rewrite (read_html_render _ P). f_equal. unfold html_text.
  destruct t as [|c [|c' t]]; [reflexivity| |reflexivity].
  cbn. repeat match goal with |- context [(c =? ?n)%N] => destruct (N.eqb_spec c n); subst end; reflexivity.
Qed.
Print Assumptions C52_escape.
Example C52_nonvacuous_measures :
  ex_run StrLen [("str", VStr [960; 32; 119070]%N)]%string = Ok (VInt 7) ex_scoped /\
  ex_run StrTrim [("str", VStr [160; 97; 32; 98; 10]%N)]%string = Ok (VStr (lit "a b")) ex_scoped /\
  ex_run StrEscapeHtml [("str", VStr (lit "a<b>&"))]%string = Ok (VStr (lit "a&lt;b&gt;&amp;")) ex_scoped.
Proof. repeat split; vm_compute; reflexivity. Qed.

(** C02, C51. A maximum length must be positive. The id is then one that has not been handed out before, and of at most that
    length, unless it is a single character with a number appended. *)
Theorem C51_native : forall X call load bs src s n base,
  ngetm bs (lit "max_length") = Some (VInt n) -> ngetm bs (lit "base") = Some (VStr base) ->
  ((n <= 0)%Z -> evaluate_native_func X call load StrUniqueId bs src s = Err (RuntimeErr (ParamMustBePositive (lit "max_length") n)) s) /\
  ((0 < n)%Z -> forall r s', evaluate_native_func X call load StrUniqueId bs src s = Ok r s' ->
     exists id, r = VStr id /\ ~ In id (st_uids s) /\ s' = set_uids (st_uids s ++ [id]) s /\
       ((3 <= n)%Z -> (Z.of_nat (blen id) <= n)%Z \/ exists stem k, id = stem ++ lit "_" ++ dec k /\ blen stem <= 1)) /\
  ((0 < n)%Z -> Identifier base -> Lowercase base -> exists id s',
     evaluate_native_func X call load StrUniqueId bs src s = Ok (VStr id) s' /\ Identifier id /\ Lowercase id).
Proof.
  intros X call load bs src s n base Hn Hb. unfold evaluate_native_func. rewrite Hn, Hb. cbn [bind ret to_int to_str].
  split; [|split].
  - intros H. unfold bind, ret. cbn. destruct (Z.leb_spec n 0); [reflexivity|lia].
  - intros H r s'. unfold bind, ret. cbn. destruct (Z.leb_spec n 0); [lia|].
    destruct (new_unique_id (x_deunicode X) base (Z.to_nat n) s) as [id s1| | |] eqn:E; try discriminate. intros [= <- <-].
    exists id. split; [reflexivity|]. destruct (C51_new_id _ _ _ _ _ _ E) as [H1 _]. split; [exact H1|].
    unfold new_unique_id in E. destruct (get_unique_id (x_deunicode X) (st_uids s) base (Z.to_nat n)) as [[i u]| |] eqn:Eg; try discriminate.
    injection E as <- <-. destruct (get_unique_id_fresh _ _ _ _ _ _ Eg) as [_ ->]. split; [reflexivity|]. intros H3.
    destruct (get_unique_id_length _ _ _ _ _ _ (ltac:(lia) : 3 <= Z.to_nat n) Eg) as [G|G]; [left; lia|right; exact G].
  - intros H Hi Hl. destruct (get_unique_id_lower (x_deunicode X) (st_uids s) base (Z.to_nat n)) as (id & u & E & H1 & H2); [lia|split; assumption|].
    exists id, (set_uids u s). split; [|auto]. unfold bind, ret. cbn. destruct (Z.leb_spec n 0); [lia|].
    unfold new_unique_id. now rewrite E.
Qed.
Print Assumptions C51_native.
Example C51_nonvacuous_native :
  ex_run StrUniqueId [("max_length", VInt 0); ("base", VStr (lit "a"))]%string = Err (RuntimeErr (ParamMustBePositive (lit "max_length") 0)) ex_scoped /\
  ex_run StrUniqueId [("max_length", VInt 5); ("base", VStr (lit "chapter"))]%string = Ok (VStr (lit "chapt")) (set_uids [lit "chapt"] ex_scoped).
Proof. split; vm_compute; reflexivity. Qed.

(** C53. Truth values. *)
Theorem C53_booleans : forall X call load bs src s,
  (forall v, ngetm bs (lit "param") = Some v ->
     exists b, evaluate_native_func X call load BoolFrom bs src s = Ok (VBool b) s /\ (b = false <-> Falsy v)) /\
  (forall a b, ngetm bs (lit "a") = Some (VBool a) -> ngetm bs (lit "b") = Some (VBool b) ->
     (exists r, evaluate_native_func X call load BoolAnd bs src s = Ok (VBool r) s /\ (r = true <-> a = true /\ b = true)) /\
     (exists r, evaluate_native_func X call load BoolOr bs src s = Ok (VBool r) s /\ (r = true <-> a = true \/ b = true))) /\
  (forall b, ngetm bs (lit "param") = Some (VBool b) ->
     exists r, evaluate_native_func X call load BoolNegate bs src s = Ok (VBool r) s /\ r <> b).
Proof.
  intros X call load bs src s. split; [|split].
  - intros v H. now apply call_bool_from.
  - intros a b Ha Hb. destruct (call_bool_ops X call load bs src s a b Ha Hb) as [-> ->].
    split; eexists; (split; [reflexivity|]); [apply andb_true_iff|apply orb_true_iff].
  - intros b Hb. rewrite (call_bool_not X call load bs src s b Hb). eexists. split; [reflexivity|]. now destruct b.
Qed.
Print Assumptions C53_booleans.
(** Documents: the nodes of a document are single pieces which together are the document. *)
Theorem C53_documents : forall X call load bs src s v h, ngetm bs (lit "html") = Some v -> to_html v = Some h ->
  (exists b, evaluate_native_func X call load HtmlIsEmpty bs src s = Ok (VBool b) s /\ (b = true <-> h = HEmpty)) /\
  (exists b, evaluate_native_func X call load HtmlIsWhitespace bs src s = Ok (VBool b) s /\
     (Normal h -> (b = true <-> exists t, events h = List.map EChar t /\ Forall AsciiSpace t))) /\
  (exists out hs, evaluate_native_func X call load ListHtmlNodes bs src s = Ok (VList out) s /\
     (Normal h -> events h = flat_map events hs /\ Forall IsPiece hs /\ List.map to_html out = List.map Some hs)) /\
  (exists r, evaluate_native_func X call load HtmlEscapeHtml bs src s = Ok (VStr r) s /\ (PlainDoc h -> read_html r = Some (doc h))).
Proof.
  intros X call load bs src s v h Hv Hh. unfold evaluate_native_func. rewrite Hv. unfold to_htmlM. cbn [bind ret]. unfold bind, ret. cbn.
  rewrite Hh. split; [|split; [|split]].
  - eexists. split; [reflexivity|]. destruct h; split; try reflexivity; discriminate.
  - eexists. split; [reflexivity|]. intros Hn.
    assert (E : forall c, is_ascii_whitespace c = true <-> AsciiSpace c).
    { intros c. unfold is_ascii_whitespace, AsciiSpace. rewrite !orb_true_iff, !N.eqb_eq. cbn. intuition congruence. }
    assert (E' : forall t, is_whitespace t = true <-> Forall AsciiSpace t).
    { intros t. unfold is_whitespace. rewrite forallb_forall, Forall_forall. split; intros G c Hc; apply E; auto. }
    assert (Inj : forall a b, List.map EChar a = List.map EChar b -> a = b).
    { induction a as [|x a IH]; intros [|y b] H; try discriminate; [reflexivity|]. cbn in H. injection H as -> H. f_equal. auto. }
    assert (No : forall evs, (exists e, In e evs /\ forall c, e <> EChar c) -> (exists t, evs = List.map EChar t /\ Forall AsciiSpace t) -> False).
    { intros evs (e & He & Hc) (t & -> & _). apply in_map_iff in He as (c & <- & _). now apply (Hc c). }
    destruct h as [|n a c|l|t| |]; cbn.
    + split; [|reflexivity]. intros _. now exists [].
    + split; [discriminate|]. intros H. exfalso. eapply No; [|exact H]. exists (EOpen n a). split; [now left|discriminate].
    + split; [discriminate|]. intros H. exfalso. inversion Hn as [| | | | |l' Hlen Hp Ha Hns]; subst.
      destruct l as [|x [|y l]]; cbn in Hlen; try lia. cbn in Ha. destruct Ha as [Ha _].
      assert (T : exists z n a c, In z [x; y] /\ z = HTag n a c).
      { rewrite Forall_forall in Hp. pose proof (Hp x (or_introl eq_refl)) as Px. pose proof (Hp y (or_intror (or_introl eq_refl))) as Py.
        destruct x; try (now destruct Px); destruct y; try (now destruct Py); first
          [exfalso; apply Ha; split; exact I
          |do 4 eexists; split; [left; reflexivity|reflexivity]
          |do 4 eexists; split; [right; left; reflexivity|reflexivity]]. }
      destruct T as (z & n & a & c & Hz & ->). apply (No (flat_map events (x :: y :: l))); [|exact H]. exists (EOpen n a). split; [|discriminate].
      apply in_flat_map. exists (HTag n a c). split; [|now left]. destruct Hz as [Ez|[Ez|[]]]; [now left|right; now left].
    + rewrite E'. split; [intros H; now exists t|]. intros (t' & Et & H). apply Inj in Et. now subst.
    + split; [|reflexivity]. intros _. exists [32%N]. split; [reflexivity|]. constructor; [|constructor]. unfold AsciiSpace. cbn. auto 10.
    + split; [|reflexivity]. intros _. exists [10%N]. split; [reflexivity|]. constructor; [|constructor]. unfold AsciiSpace. cbn. auto 10.
  - eexists. exists (html_nodes h). split; [reflexivity|]. intros Hn. split; [|split].
    + destruct h; cbn; rewrite ?app_nil_r; reflexivity.
    + inversion Hn; subst; cbn; try (constructor; [exact I|constructor]); auto.
    + rewrite !map_map. apply map_ext_in. intros x Hx.
      assert (Nx : Normal x).
      { inversion Hn; subst; cbn in Hx; try (destruct Hx as [<- |[]]; exact Hn); [destruct Hx|].
        match goal with HF : Forall Normal _ |- _ => rewrite Forall_forall in HF; auto end. }
      destruct x as [|n a c|l|t| |]; cbn; try reflexivity. inversion Nx as [| | |t' N1 N2 N3| |]; subst. unfold html_text.
      destruct t as [|c [|c' t]]; [congruence| |reflexivity].
      destruct (N.eqb_spec c 32); [subst; congruence|]. destruct (N.eqb_spec c 10); [subst; congruence|]. reflexivity.
  - eexists. split; [reflexivity|]. apply read_html_render.
Qed.
Print Assumptions C53_documents.
Example C53_nonvacuous_booleans : Falsy (VInt 0) /\
  ex_run BoolFrom [("param", VInt (-3))]%string = Ok (VBool true) ex_scoped /\
  ex_run BoolFrom [("param", VDict [])]%string = Ok (VBool false) ex_scoped /\
  ex_run ListHtmlNodes [("html", VHtml (HSeq [HText (lit "ab"); HTag (lit "b") [] HEmpty]))]%string
    = Ok (VList [VStr (lit "ab"); VHtml (HTag (lit "b") [] HEmpty)]) ex_scoped.
Proof. split; [constructor|]. repeat split; vm_compute; reflexivity. Qed.

(** C59. Compiling a regular expression succeeds just when the library accepts it and its groups either all have no name or
    all have a name that is an identifier; the value records which. *)
Theorem C59_compile : forall X call load bs src s t, ngetm bs (lit "source") = Some (VStr t) ->
  match x_regex X t with
  | None => evaluate_native_func X call load RegexCompile bs src s = Err (RuntimeErr RegexSyntaxError) s
  | Some gs =>
    (forall v s', evaluate_native_func X call load RegexCompile bs src s = Ok v s' <->
       s' = s /\ exists k, KindOf gs k /\ v = VRegex (Regex t k)) /\
    (forall e s', evaluate_native_func X call load RegexCompile bs src s = Err e s' <->
       s' = s /\ exists r, BadGroups gs r /\ e = RuntimeErr r) /\
    ((exists k, KindOf gs k) \/ exists r, BadGroups gs r)
  end.
Proof.
  intros X call load bs src s t Ht.
  assert (E : evaluate_native_func X call load RegexCompile bs src s = compile_regex X t s)
    by (unfold evaluate_native_func; rewrite Ht; reflexivity).
  rewrite E. destruct (x_regex X t) as [gs|] eqn:Eg; [|unfold compile_regex; now rewrite Eg].
  rewrite (compile_classify X t gs s Eg). split; [|split].
  - intros v s'. destruct (classify gs) as [k|r] eqn:Ec.
    + rewrite ok_inj. split; [intros [-> ->]|intros (-> & k' & Hk & ->)].
      * split; [reflexivity|]. exists k. split; [now apply classify_kind|reflexivity].
      * apply classify_kind in Hk. split; congruence.
    + split; [discriminate|]. intros (_ & k & Hk & _). apply classify_kind in Hk. congruence.
  - intros e s'. destruct (classify gs) as [k|r] eqn:Ec.
    + split; [discriminate|]. intros (_ & r & Hr & _). apply classify_bad in Hr. congruence.
    + split.
      * intros [= <- <-]. split; [reflexivity|]. exists r. split; [now apply classify_bad|reflexivity].
      * intros (-> & r' & Hr & ->). apply classify_bad in Hr. congruence.
  - destruct (classify gs) as [k|r] eqn:Ec; [left; exists k; now apply classify_kind|right; exists r; now apply classify_bad].
Qed.
Print Assumptions C59_compile.
(** Matching: the results are those of the library, as strings, lists or dictionaries, for any library whose matches have
    the groups of the expression. *)
Theorem C59_match : forall X call load bs src s rx t, ngetm bs (lit "regex") = Some (VRegex rx) -> ngetm bs (lit "str") = Some (VStr t) ->
  (forall gs, x_captures X (rx_source rx) t = Some gs \/ In gs (x_captures_iter X (rx_source rx) t) -> GroupsOf (rx_kind rx) gs) ->
  (exists v, evaluate_native_func X call load RegexFind bs src s = Ok v s /\
     match x_captures X (rx_source rx) t with Some gs => MatchValue (rx_kind rx) gs v | None => v = UNIT end) /\
  (exists vs, evaluate_native_func X call load RegexFindAll bs src s = Ok (VList vs) s /\
     Forall2 (MatchValue (rx_kind rx)) (x_captures_iter X (rx_source rx) t) vs) /\
  evaluate_native_func X call load RegexTest bs src s = Ok (VBool (x_is_match X (rx_source rx) t)) s /\
  evaluate_native_func X call load RegexCount bs src s = Ok (VInt (Z.of_nat (x_find_count X (rx_source rx) t))) s /\
  evaluate_native_func X call load RegexSplit bs src s = Ok (VList (List.map VStr (x_split X (rx_source rx) t))) s.
Proof.
  intros X call load bs src s rx t Hr Ht HG. unfold evaluate_native_func. rewrite Hr, Ht. cbn. unfold bind, ret. cbn.
  split; [|split; [|repeat split; reflexivity]].
  - eexists. split; [reflexivity|]. destruct (x_captures X (rx_source rx) t) as [gs|] eqn:E; [|reflexivity].
    apply match_value_iff; [apply HG; now left|reflexivity].
  - eexists. split; [reflexivity|].
    assert (G : forall l, (forall gs, In gs l -> GroupsOf (rx_kind rx) gs) -> Forall2 (MatchValue (rx_kind rx)) l (List.map (captures_to_value (rx_kind rx)) l)).
    { induction l as [|gs l IH]; intros H; constructor; [apply match_value_iff; [apply H; now left|reflexivity]|]. apply IH. intros x Hx. apply H. now right. }
    apply G. intros gs Hgs. apply HG. now right.
Qed.
Print Assumptions C59_match.
Example C59_nonvacuous :
  KindOf [Some (lit "y"); Some (lit "m")] (RNamed [lit "y"; lit "m"]) /\
  BadGroups [None; Some (lit "m")] RegexMixedGroupKinds /\
  BadGroups [Some (lit "y"); Some (lit "1x")] (RegexInvalidGroupName (lit "1x")) /\
  GroupsOf (RNamed [lit "y"; lit "m"]) [Some (lit "20-1"); Some (lit "20"); None] /\
  MatchValue (RNamed [lit "y"; lit "m"]) [Some (lit "20-1"); Some (lit "20"); None] (VDict [(lit "y", VStr (lit "20")); (lit "m", UNIT)]).
Proof.
  split; [constructor; [discriminate|reflexivity|]; repeat constructor; apply is_identifier_spec; reflexivity|].
  split; [apply (BG_mixed _ (lit "m")); cbn; auto|].
  split; [apply (BG_name [lit "y"] (lit "1x") []); [repeat constructor; apply is_identifier_spec; reflexivity|intros H; apply is_identifier_spec in H; discriminate]|].
  assert (ND : NoDup [lit "y"; lit "m"]) by (repeat constructor; cbn; intuition discriminate).
  split; [split; [exact ND|reflexivity]|].
  apply (MV_named [lit "y"; lit "m"] _ [Some (lit "20"); None] [VStr (lit "20"); UNIT]); [exact ND|repeat constructor|reflexivity].
Qed.

(** C60. The functions that load modules and read, list and write files. *)

(** [import] gives the exports of the module, and [include] its document, declaring its exports in the current scope and
    changing nothing else that loading has not changed. Both look the path up relative to the directory of the source
    file, adding the suffix if it is missing. *)
Theorem C60_import : forall X call load bs src s p, ngetm bs (lit "path") = Some (VStr p) ->
  let full := resolve_relative_path src p true in
  (forall e s1, load full s = Err e s1 ->
     evaluate_native_func X call load FImport bs src s = Err e s1 /\ evaluate_native_func X call load FInclude bs src s = Err e s1) /\
  (forall h d s1, load full s = Ok (h, d) s1 ->
     evaluate_native_func X call load FImport bs src s = Ok (VDict d) s1 /\
     forall i k, st_stack s1 = i :: k -> i < length (st_heap s1) -> NoDup (List.map fst d) ->
     exists r sk heap, evaluate_native_func X call load FInclude bs src s = Ok r (set_sink sk (set_heap heap s1)) /\
       (Normal h -> to_html r = Some h) /\ DeclaredIn i d (st_heap s1) heap).
Proof.
  intros X call load bs src s p Hp full.
  assert (E1 : evaluate_native_func X call load FImport bs src s = (let* r := load full in ret (VDict (snd r))) s)
    by (unfold evaluate_native_func; rewrite Hp; reflexivity).
  assert (E2 : evaluate_native_func X call load FInclude bs src s = (let* r := load full in (set_vars (snd r);;; ret (of_html (fst r)))) s)
    by (unfold evaluate_native_func; rewrite Hp; reflexivity).
  rewrite E1, E2. unfold bind. split.
  - intros e s1 ->. split; reflexivity.
  - intros h d s1 ->. split; [reflexivity|]. intros i k Hs Hi Hd. cbn [fst snd].
    destruct (set_vars_declared d s1 i k Hs Hi Hd) as (sk & heap & E & HD). rewrite E. exists (of_html h), sk, heap.
    split; [reflexivity|]. split; [|exact HD]. intros Hn. destruct Hn as [| | |t N1 N2 N3| |]; try reflexivity. cbn. unfold html_text.
    destruct t as [|c [|c' t]]; [congruence| |reflexivity].
    destruct (N.eqb_spec c 32); [subst; congruence|]. destruct (N.eqb_spec c 10); [subst; congruence|]. reflexivity.
Qed.
Print Assumptions C60_import.
(** Writing adds the document to the files to be written, under the path resolved against the output directory (C10), and
    has no other effect; it is an error where writing is not allowed, or if the path leaves the directory. *)
Theorem C60_write : forall X call load bs src s p v h, ngetm bs (lit "path") = Some (VStr p) ->
  ngetm bs (lit "html") = Some v -> to_html v = Some h ->
  match st_out s with
  | None => evaluate_native_func X call load FileWrite bs src s = Err (RuntimeErr WriteFileNotAllowed) s
  | Some o =>
    (forall r s', evaluate_native_func X call load FileWrite bs src s = Ok r s' <->
       r = UNIT /\ exists names, make_relative (base_path o) p = Some names /\
         s' = set_out (Some (OutFiles (base_path o) (out_v o ++ [(names, h)]))) s) /\
    (make_relative (base_path o) p = None ->
       evaluate_native_func X call load FileWrite bs src s = Err (RuntimeErr (PathNotInOutDir p)) s)
  end.
Proof.
  intros X call load bs src s p v h Hp Hv Hh.
  assert (E : evaluate_native_func X call load FileWrite bs src s = (push_out_file p h;;; ret UNIT) s)
    by (unfold evaluate_native_func; rewrite Hp, Hv; unfold bind, ret, to_htmlM; cbn; rewrite Hh; reflexivity).
  rewrite E. unfold bind, push_out_file, try_push. destruct (st_out s) as [o|]; [|reflexivity].
  destruct (make_relative (base_path o) p) as [names|]; (split; [intros r s'|]); try congruence; try reflexivity.
  - cbn. rewrite ok_inj. split; [intros [-> ->]; eauto|]. intros (-> & names' & [= <-] & ->). auto.
  - split; [discriminate|]. intros (_ & names & ? & _). discriminate.
Qed.
Print Assumptions C60_write.
(** Reading gives the text of the file, raising the given error. *)
Theorem C60_read_raise : forall X call load bs src s,
  (forall p, ngetm bs (lit "path") = Some (VStr p) ->
     evaluate_native_func X call load FileRead bs src s =
       match x_read X (resolve_relative_path src p false) with
       | Some t => Ok (VStr t) s
       | None => Err (RuntimeErr (FileReadError p)) s
       end) /\
  (forall t, ngetm bs (lit "str") = Some (VStr t) ->
     evaluate_native_func X call load FRaise bs src s = Err (RuntimeErr (Raised t)) s).
Proof.
  intros X call load bs src s. split.
  - intros p Hp. unfold evaluate_native_func. rewrite Hp. unfold bind, ret. cbn. destruct (x_read _ _); reflexivity.
  - intros t Ht. now apply call_str.
Qed.
Print Assumptions C60_read_raise.
(** Nothing is fetched from the network unless that is enabled. *)
Theorem C60_network : forall X call load bs src s p, ngetm bs (lit "path") = Some (VStr p) -> x_fetch X = None ->
  evaluate_native_func X call load NetFetchRaw bs src s = Err (RuntimeErr NetworkDisabled) s /\
  evaluate_native_func X call load NetFetchHtml bs src s = Err (RuntimeErr NetworkDisabled) s.
Proof.
  intros X call load bs src s p Hp Hf. unfold evaluate_native_func. rewrite Hp. unfold native_fetch. rewrite Hf. split; reflexivity.
Qed.
Print Assumptions C60_network.
(** Listing a directory gives its source files in order, without their suffix, below the path asked for; the errors met are
    reported. *)
Theorem C60_list_partial : forall X call load bs src s p errs files, ngetm bs (lit "path") = Some (VStr p) ->
  x_list_dir X (resolve_relative_path src p false) = Some (errs, files) ->
  (forall f, In f files -> exists stem, f = stem ++ lit ".papyri") ->
  exists out, evaluate_native_func X call load FileList bs src s =
      Ok (VList (List.map VStr out)) (set_sink (fold_left (fun k q => sink_add (ModuleErr (IOError q)) k) errs (st_sink s)) s) /\
    Forall2 (fun f o => exists dir, o ++ lit ".papyri" = dir ++ lit "/" ++ f /\
       exists slashes, p = dir ++ slashes /\ Forall (eq (c_of "/"%string)) slashes /\ forall d, dir <> d ++ lit "/") files out.
Proof. exact listing. Qed.
Print Assumptions C60_list_partial.
(** But source files are found by their suffix in any case, and a suffix in another case makes the listing crash. *)
Theorem C60_list_refuted : forall X call load src s, exists f, is_papyri_file f = true /\
  forall bs p files, ngetm bs (lit "path") = Some (VStr p) -> In f files ->
  x_list_dir X (resolve_relative_path src p false) = Some ([], files) ->
  evaluate_native_func X call load FileList bs src s = Crash FListing.
Proof. exact listing_crash. Qed.
Print Assumptions C60_list_refuted.
Example C60_nonvacuous : exists s',
  evaluate_native_func ex_X ex_eval (fun p => if str_eqb p (lit "d/m.papyri") then ret (HText (lit "hi"), [(lit "x", VInt 1)]) else ex_load p)
    FInclude [(lit "path", VStr (lit "m"))] (lit "d/main.papyri") ex_scoped = Ok (VStr (lit "hi")) s' /\
  get_var (lit "x") s' = Ok (VInt 1) s' /\
  (exists s2, evaluate_native_func ex_X ex_eval ex_load FileWrite [(lit "path", VStr (lit "a/b.html")); (lit "html", VStr (lit "hi"))] (lit "m") ex_start = Ok UNIT s2 /\
     st_out s2 = Some (OutFiles (lit "out") [([Norm (lit "a"); Norm (lit "b.html")], HText (lit "hi"))])).
Proof. eexists. split; [vm_compute; reflexivity|]. split; [vm_compute; reflexivity|]. eexists. split; vm_compute; reflexivity. Qed.

(** C40. The [code] function: the language is that named by the first line of a block, or the parameter, or none; the code
    loses the indentation common to its lines (C08) and is highlighted (see the other theorems of C40). The result is a
    code element, marked with the language if it is a known one; in a block the lines are numbered. *)
Theorem C40_code : forall X call load bs src s lang is_block no code r s',
  ngetm bs (lit "language") = Some match lang with None => UNIT | Some l => VStr l end ->
  ngetm bs (lit "code_block") = Some (VBool is_block) -> ngetm bs (lit "first_line_no") = Some (VInt no) ->
  ngetm bs (lit "source") = Some (VStr code) ->
  evaluate_native_func X call load FCode bs src s = Ok r s' ->
  exists l body text ls unknown content warnings,
    let default := match lang with None => lit "none" | Some l => l end in
    (if is_block then HintedCode default code l body else l = default /\ body = code) /\
    fix_indentation body = Ret text /\ syntax_highlight (x_syntect X) text l = Ret (ls, unknown) /\
    r = VHtml (HTag (lit "code")
                 (if str_eqb l (lit "none") then [] else match unknown with
                  | None => [(lit "class", Some (lit "syntax-highlight lang-" ++ l))]
                  | Some _ => []
                  end) content) /\
    (is_block = false -> events content = flat_map events ls) /\
    (is_block = true -> (forall i, i < length ls -> Int64 (no + Z.of_nat i)) -> events content = NumberedLines no ls) /\
    s' = set_sink (fold_left (fun k w => sink_add (Warn w) k) warnings (st_sink s)) s /\
    warnings = match unknown with Some w => [w] | None => [] end
               ++ (if is_block then [] else (if (no =? 1)%Z then [] else [InlineHighlightEnumerate])
                                            ++ (if 1 <? length ls then [InlineHighlightMultiline] else [])).
Proof.
  intros X call load bs src s lang is_block no code r s' Hl Hb Hn Hc H.
  assert (E : evaluate_native_func X call load FCode bs src s = (let* h := native_code X lang is_block no code in ret (VHtml h)) s).
  { unfold evaluate_native_func. rewrite Hl, Hb, Hn, Hc. destruct lang; reflexivity. }
  rewrite E in H. clear E. apply then_ret_ok in H as (h & H & ->). unfold native_code in H. cbv zeta in H.
  set (default := match lang with None => lit "none" | Some l => l end) in *.
  assert (Ed : match lang with Some l => l | None => lit "none" end = default) by (unfold default; destruct lang; reflexivity).
  clear Ed.
  destruct (if is_block then get_source_language_hint code default else (default, code)) as [l body] eqn:Eh.
  destruct (fix_indentation body) as [text| |] eqn:Ef; try discriminate. unfold bind at 1, pure at 1 in H.
  destruct (syntax_highlight (x_syntect X) text l) as [[ls unknown]| |] eqn:Es; try discriminate. unfold bind at 1, pure at 1 in H.
  assert (Hint : if is_block then HintedCode default code l body else l = default /\ body = code)
    by (destruct is_block; [now apply hinted_spec|injection Eh as <- <-; auto]).
  assert (Hnone : l = lit "none" -> unknown = None).
  { intros ->. unfold syntax_highlight in Es. cbn [str_eqb] in Es. injection Es as _ <-. reflexivity. }
  set (s1 := match unknown with Some w => set_sink (sink_add (Warn w) (st_sink s)) s | None => s end).
  assert (E1 : (match unknown with Some w => report (Warn w) | None => ret tt end) s = Ok tt s1) by (unfold s1; destruct unknown; reflexivity).
  unfold bind at 1 in H. rewrite E1 in H.
  assert (Hattrs : (match unknown with
                    | Some _ => []
                    | None => if str_eqb l (lit "none") then [] else [(n_class, Some (lit "syntax-highlight lang-" ++ l))]
                    end) = (if str_eqb l (lit "none") then [] else match unknown with
                  | None => [(lit "class", Some (lit "syntax-highlight lang-" ++ l))]
                  | Some _ => []
                  end)) by (destruct unknown, (str_eqb l (lit "none")); reflexivity).
  rewrite Hattrs in H.
  exists l, body, text, ls, unknown. destruct is_block.
  - unfold bind, pure, ret in H. destruct (enumerate_lines (x_checks X) ls no) as [content| |] eqn:En; try discriminate. injection H as <- <-.
    exists content. eexists. cbv zeta. split; [exact Hint|]. split; [exact Ef|]. split; [exact Es|]. split; [reflexivity|].
    split; [discriminate|]. split.
    + intros _ Hi. destruct (C40_line_numbers (x_checks X) ls no Hi) as (out & Eo & He & _). congruence.
    + split; [|reflexivity]. rewrite app_nil_r. unfold s1. destruct unknown; cbn; [reflexivity|destruct s; reflexivity].
  - exists (from_iter ls). eexists. cbv zeta.
    assert (G : h = HTag n_code (if str_eqb l (lit "none") then [] else match unknown with
                  | None => [(lit "class", Some (lit "syntax-highlight lang-" ++ l))]
                  | Some _ => []
                  end) (from_iter ls) /\
       s' = set_sink (fold_left (fun k w => sink_add (Warn w) k) ((if (no =? 1)%Z then [] else [InlineHighlightEnumerate])
                                            ++ (if 1 <? length ls then [InlineHighlightMultiline] else [])) (st_sink s1)) s1).
    { revert H. unfold bind, ret, report, modify. destruct (no =? 1)%Z, (1 <? length ls); intros [= <- <-]; (split; [reflexivity|]);
        cbn; try reflexivity; destruct s1; reflexivity. }
    destruct G as [-> ->].
    split; [exact Hint|]. split; [exact Ef|]. split; [exact Es|]. split; [reflexivity|]. split; [intros _; apply from_iter_events|].
    split; [discriminate|]. split; [|reflexivity]. rewrite !fold_left_app. clear. unfold s1.
    destruct unknown, (no =? 1)%Z, (1 <? length ls); cbn; reflexivity.
Qed.
Print Assumptions C40_code.
Example C40_nonvacuous_code : exists s' h,
  ex_run FCode [("language", UNIT); ("code_block", VBool true); ("first_line_no", VInt 7);
                ("source", VStr (lit "papyri
  @f x
    y"))]%string = Ok (VHtml (HTag (lit "code") [(lit "class", Some (lit "syntax-highlight lang-papyri"))] h)) s' /\
  text_of h = lit "@f x
  y
".
Proof. do 2 eexists. split; vm_compute; reflexivity. Qed.
