(** Proofs about the remaining native functions. *)
From Verif Require Import Base BaseFacts M_Text M_Names M_Html S_Html P_Html M_Types M_Token M_Tokenizer M_Diag M_Int M_Highlight M_Ast M_Value M_State
  M_Render M_SourceFile M_Binder M_Native S_Text P_Text S_Scope P_State P_Scope P_Coerce P_Call S_Native P_Native P_NativeCalls S_Highlight S_Native2.

Lemma utf8_length s : length (flat_map utf8 s) = blen s.
Proof.
  induction s as [|c s IH]; [reflexivity|]. cbn [flat_map blen]. rewrite app_length, IH. f_equal. unfold utf8, utf8_len.
  repeat match goal with |- context [(?a <? ?b)%N] => destruct (a <? b)%N end; reflexivity.
Qed.

(** ** Booleans and strings *)
Section Calls.
  Variable X : externals.
  Variable call : func -> nmap value -> ty -> str -> EM value.
  Variable load : str -> EM (html * nmap value).
  Variables (bs : nmap value) (src : str) (s : st).
  Notation run f := (evaluate_native_func X call load f bs src s).
  Ltac go := unfold evaluate_native_func; repeat match goal with H : ngetm bs _ = Some _ |- _ => rewrite H end; reflexivity.

  Lemma call_bool_from v : ngetm bs (lit "param") = Some v ->
    exists b, run BoolFrom = Ok (VBool b) s /\ (b = false <-> Falsy v).
  Proof.
    intros Hv. eexists. split; [go|]. destruct v as [b|i|t|d|l|h|f|r].
    - split; [intros ->; constructor|intros H; now inversion H].
    - split; [|intros H; inversion H; reflexivity]. intros H. destruct (Z.eqb_spec i 0) as [-> |]; [constructor|discriminate].
    - destruct t; split; try discriminate; try constructor. intros H; inversion H.
    - destruct d; split; try discriminate; try constructor. intros H; inversion H.
    - destruct l; split; try discriminate; try constructor. intros H; inversion H.
    - destruct h; split; try discriminate; try constructor; intros H; inversion H.
    - split; [discriminate|intros H; inversion H].
    - split; [discriminate|intros H; inversion H].
  Qed.
  Lemma call_bool_ops a b : ngetm bs (lit "a") = Some (VBool a) -> ngetm bs (lit "b") = Some (VBool b) ->
    run BoolAnd = Ok (VBool (a && b)) s /\ run BoolOr = Ok (VBool (a || b)) s.
  Proof. intros Ha Hb. split; go. Qed.
  Lemma call_bool_not b : ngetm bs (lit "param") = Some (VBool b) -> run BoolNegate = Ok (VBool (negb b)) s.
  Proof. intros Hb. go. Qed.
  Lemma call_str t : ngetm bs (lit "str") = Some (VStr t) ->
    run StrLen = Ok (VInt (Z.of_nat (blen t))) s /\
    run StrIsEmpty = Ok (VBool match t with [] => true | _ => false end) s /\
    run StrIsWhitespace = Ok (VBool (is_whitespace t)) s /\
    run StrTrim = Ok (VStr (trim t)) s /\
    run StrEscapeHtml = Ok (VStr (render true (html_text t))) s /\
    run StrLower = Ok (VStr (x_lower X t)) s /\ run StrUpper = Ok (VStr (x_upper X t)) s /\
    run FRaise = Err (RuntimeErr (Raised t)) s.
  Proof. intros Ht. repeat split; go. Qed.
End Calls.

(** ** Regular expressions *)
Lemma find_none_all {A} (p : A -> bool) l : List.find p l = None <-> forall x, In x l -> p x = false.
Proof.
  split; [apply List.find_none|]. induction l as [|x l IH]; intros H; [reflexivity|]. cbn. rewrite (H x) by (left; reflexivity). apply IH. intros y Hy. apply H. now right.
Qed.
Definition classify (gs : list (option str)) : regex_kind + runtime_error :=
  match gs with
  | [] => inl RSimple
  | _ =>
    if forallb (fun g => match g with None => true | Some _ => false end) gs then inl RNumbered
    else if forallb (fun g => match g with Some _ => true | None => false end) gs then
      let names := flat_map (fun g => match g with Some n => [n] | None => [] end) gs in
      match List.find (fun n => negb (is_identifier n)) names with
      | Some n => inr (RegexInvalidGroupName n)
      | None => inl (RNamed names)
      end
    else inr RegexMixedGroupKinds
  end.
Lemma compile_classify X t gs s : x_regex X t = Some gs ->
  compile_regex X t s = match classify gs with inl k => Ok (VRegex (Regex t k)) s | inr e => Err (RuntimeErr e) s end.
Proof.
  intros E. unfold compile_regex, classify. rewrite E. destruct gs as [|g gs]; [reflexivity|].
  destruct (forallb _ (g :: gs)); [reflexivity|]. destruct (forallb _ (g :: gs)); [|reflexivity].
  cbv zeta. destruct (List.find _ _); reflexivity.
Qed.
Lemma all_some gs : forallb (fun g : option str => match g with Some _ => true | None => false end) gs = true ->
  gs = List.map Some (flat_map (fun g => match g with Some n => [n] | None => [] end) gs).
Proof. induction gs as [|[n|] gs IH]; cbn; intros H; [reflexivity| |discriminate]. now rewrite <- IH. Qed.
Lemma names_of_some (names : list str) : flat_map (fun g => match g with Some n => [n] | None => [] end) (List.map Some names) = names.
Proof. induction names as [|n l IH]; cbn; [reflexivity|now rewrite IH]. Qed.
Lemma not_all {A} (p : A -> bool) l : forallb p l = false -> exists x, In x l /\ p x = false.
Proof.
  induction l as [|x l IH]; [discriminate|]. cbn. destruct (p x) eqn:E; cbn; [|eauto].
  intros H. destruct (IH H) as (y & H1 & H2). eauto.
Qed.
Lemma classify_kind gs k : classify gs = inl k <-> KindOf gs k.
Proof.
  unfold classify. split.
  - destruct gs as [|g gs]; [intros [= <-]; constructor|]. set (l := g :: gs) in *. assert (Hl : l <> []) by discriminate. clearbody l.
    destruct (forallb _ l) eqn:E1.
    + assert (H : l <> [] -> KindOf l RNumbered).
      { constructor; [auto|]. intros x Hx. rewrite forallb_forall in E1. specialize (E1 x Hx). destruct x; [discriminate|reflexivity]. }
      intros [= <-]. auto.
    + destruct (forallb (fun g => match g with Some _ => true | None => false end) l) eqn:E2; [|discriminate]. cbv zeta.
      destruct (List.find _ _) eqn:E3; [discriminate|]. intros [= <-]. constructor; [auto|now apply all_some|].
      apply Forall_forall. intros n Hn. apply is_identifier_spec. rewrite find_none_all in E3. specialize (E3 n Hn). now destruct (is_identifier n).
  - intros H. destruct H as [|gs Hn Ha|gs names Hn -> Hi]; [reflexivity| |].
    + destruct gs as [|g gs]; [congruence|]. replace (forallb _ (g :: gs)) with true; [reflexivity|]. symmetry. apply forallb_forall.
      intros x Hx. now rewrite (Ha x Hx).
    + destruct names as [|n names]; [now destruct Hn|]. set (l := n :: names) in *.
      assert (E : forallb (fun g : option str => match g with Some _ => true | None => false end) (List.map Some l) = true).
      { apply forallb_forall. intros x Hx. apply in_map_iff in Hx as (y & <- & _). reflexivity. }
      rewrite E, names_of_some. cbv zeta.
      replace (List.find _ l) with (@None str).
      * reflexivity.
      * symmetry. apply find_none_all. intros x Hx. rewrite Forall_forall in Hi. apply Hi, is_identifier_spec in Hx. now rewrite Hx.
Qed.
Lemma find_first_split {A} (p : A -> bool) l x : List.find p l = Some x ->
  exists a b, l = a ++ x :: b /\ p x = true /\ forall y, In y a -> p y = false.
Proof.
  induction l as [|y l IH]; [discriminate|]. cbn. destruct (p y) eqn:E.
  - intros [= <-]. exists [], l. repeat split; auto. intros z [].
  - intros H. destruct (IH H) as (a & b & -> & Hx & Ha). exists (y :: a), b. repeat split; auto. intros z [<- |Hz]; auto.
Qed.
Lemma find_app_first {A} (p : A -> bool) a x b : p x = true -> (forall y, In y a -> p y = false) -> List.find p (a ++ x :: b) = Some x.
Proof.
  intros Hx Ha. induction a as [|y a IH]; cbn; [now rewrite Hx|]. rewrite (Ha y) by now left. apply IH. intros z Hz. apply Ha. now right.
Qed.
Lemma classify_bad gs e : classify gs = inr e <-> BadGroups gs e.
Proof.
  unfold classify. split.
  - destruct gs as [|g gs]; [discriminate|]. set (l := g :: gs) in *. clearbody l.
    destruct (forallb _ l) eqn:E1; [destruct l; discriminate|].
    destruct (forallb (fun g => match g with Some _ => true | None => false end) l) eqn:E2; cbv zeta.
    + destruct (List.find _ _) as [n|] eqn:E3; [|discriminate]. intros [= <-]. apply find_first_split in E3 as (a & b & E & Hn & Ha).
      rewrite (all_some l E2), E. constructor.
      * apply Forall_forall. intros y Hy. apply is_identifier_spec. specialize (Ha y Hy). now destruct (is_identifier y).
      * intros Hi. apply is_identifier_spec in Hi. now rewrite Hi in Hn.
    + intros [= <-]. apply not_all in E1 as ([n|] & H1 & H1'); [|discriminate]. apply not_all in E2 as ([m|] & H2 & H2'); [discriminate|].
      econstructor; eassumption.
  - intros H. destruct H as [gs n Hn Hs|a n b Ha Hn].
    + destruct gs as [|g gs]; [now destruct Hn|]. set (l := g :: gs) in *. clearbody l.
      replace (forallb _ l) with false.
      * replace (forallb _ l) with false; [reflexivity|]. symmetry. apply not_true_iff_false. rewrite forallb_forall. intros H. now specialize (H _ Hn).
      * symmetry. apply not_true_iff_false. rewrite forallb_forall. intros H. now specialize (H _ Hs).
    + set (l := a ++ n :: b). assert (Hin : In n l) by (apply in_or_app; right; now left).
      destruct (List.map Some l) as [|g gs] eqn:El; [destruct l; [now destruct Hin|discriminate]|]. rewrite <- El.
      replace (forallb (fun g : option str => match g with None => true | Some _ => false end) (List.map Some l)) with false.
      * replace (forallb _ (List.map Some l)) with true.
        -- rewrite names_of_some. cbv zeta. unfold l. rewrite find_app_first; [reflexivity| |].
           ++ destruct (is_identifier n) eqn:E; [|reflexivity]. apply is_identifier_spec in E. now destruct Hn.
           ++ intros y Hy. rewrite Forall_forall in Ha. apply Ha, is_identifier_spec in Hy. now rewrite Hy.
        -- symmetry. apply forallb_forall. intros x Hx. apply in_map_iff in Hx as (y & <- & _). reflexivity.
      * symmetry. apply not_true_iff_false. rewrite forallb_forall. intros H.
        assert (In (Some n) (List.map Some l)) as Hs by now apply in_map. now specialize (H _ Hs).
Qed.

Lemma captured_map gs vs : Forall2 Captured gs vs -> List.map group_value gs = vs.
Proof.
  induction 1 as [|g v gs vs H HF IH]; [reflexivity|]. cbn. rewrite IH. f_equal. destruct g; cbn in *; congruence.
Qed.
Lemma map_captured gs : Forall2 Captured gs (List.map group_value gs).
Proof. induction gs as [|[g|] gs IH]; constructor; auto; reflexivity. Qed.
Lemma map_fst_combine {A B} : forall (a : list A) (b : list B), length a = length b -> List.map fst (combine a b) = a.
Proof. induction a as [|x a IH]; intros [|y b] H; cbn in *; try discriminate; [reflexivity|]. now rewrite IH by (injection H; auto). Qed.
Lemma match_value_of k gs v : MatchValue k gs v -> captures_to_value k gs = v.
Proof.
  intros H. destruct H as [g gs v H|gs vs H|names g gs vs Hn H Hl]; cbn.
  - destruct g; cbn in *; congruence.
  - now rewrite (captured_map gs vs H).
  - rewrite (captured_map gs vs H), nfrom_distinct; [reflexivity|]. now rewrite map_fst_combine.
Qed.
Lemma match_value_iff k gs v : GroupsOf k gs -> (MatchValue k gs v <-> v = captures_to_value k gs).
Proof.
  intros H. split; [intros E; now rewrite (match_value_of _ _ _ E)|intros ->]. destruct k as [| |names]; cbn in *.
  - destruct gs as [|g gs]; [congruence|]. constructor. destruct g; reflexivity.
  - constructor. apply map_captured.
  - destruct H as [Hn Hl]. destruct gs as [|g gs]; [discriminate|]. cbn in *. injection Hl as Hl.
    rewrite nfrom_distinct by (rewrite map_fst_combine; [exact Hn|now rewrite map_length]).
    constructor; [exact Hn|apply map_captured|now rewrite map_length].
Qed.

(** ** Declaring the exports of a module *)
Lemma set_vars_declared d : forall s i k, st_stack s = i :: k -> i < length (st_heap s) -> NoDup (List.map fst d) ->
  exists sk h', set_vars d s = Ok tt (set_sink sk (set_heap h' s)) /\ DeclaredIn i d (st_heap s) h'.
Proof.
  induction d as [|[n v] d IH]; intros s i k Es Hi Hn.
  - exists (st_sink s), (st_heap s). split; [destruct s; reflexivity|]. repeat split; auto; intros ? ? [].
  - cbn [List.map fst] in Hn. apply NoDup_cons_iff in Hn as [Hnn Hn].
    destruct (set_var_eq n v false s i k Es) as [sk1 E1].
    set (s1 := set_sink sk1 (set_heap (update (st_heap s) i (fr_set n v false)) s)) in *.
    assert (Es1 : st_stack s1 = i :: k) by exact Es.
    assert (Eh1 : st_heap s1 = update (st_heap s) i (fr_set n v false)) by reflexivity.
    assert (Hi1 : i < length (st_heap s1)) by (rewrite Eh1, update_length; exact Hi).
    destruct (IH s1 i k Es1 Hi1 Hn) as (sk & h' & E & Hl & Hd & Ho & Hj).
    exists sk, h'. split.
    + cbn [set_vars]. unfold bind at 1. rewrite E1. rewrite E. destruct s; reflexivity.
    + destruct (nth_error (st_heap s) i) as [f|] eqn:Ef; [|apply nth_error_None in Ef; lia].
      assert (Ef1 : nth_error (st_heap s1) i = Some (fr_set n v false f)) by (rewrite Eh1; now apply update_same).
      split; [rewrite Hl, Eh1, update_length; reflexivity|]. split; [|split].
      * intros m w [E2|Hin]; [|now apply Hd]. injection E2 as <- <-. apply Ho; [exact Hnn|].
        exists (fr_set n v false f). split; [exact Ef1|]. rewrite fr_set_getm, str_eqb_refl. reflexivity.
      * intros m w Hm. cbn [List.map fst] in Hm. rewrite <- (Ho m w) by (intros H; apply Hm; now right).
        assert (Emn : str_eqb m n = false) by (apply not_true_iff_false; intros H; apply str_eqb_eq in H; apply Hm; left; congruence).
        split; intros (f' & H1 & H2).
        -- assert (f' = f) by congruence. subst f'. exists (fr_set n v false f). split; [exact Ef1|]. now rewrite fr_set_getm, Emn.
        -- assert (f' = fr_set n v false f) by congruence. subst f'. rewrite fr_set_getm, Emn in H2. exists f. split; assumption.
      * intros j Hne. rewrite (Hj j Hne), Eh1. now apply update_other.
Qed.

(** ** Code *)
Lemma trimmed_end_unique s t t' : TrimmedEnd s t -> TrimmedEnd s t' -> t = t'.
Proof.
  intros (w & E & Hw & Ht) (w' & E' & Hw' & Ht'). subst s.
  assert (G : forall t w t' w', t ++ w = t' ++ w' -> Forall WhiteSpace w -> (forall i c, t' = i ++ [c] -> ~ WhiteSpace c) -> length t' <= length t).
  { clear. intros t w t' w' E Hw Ht'. destruct (le_lt_dec (length t') (length t)) as [H|H]; [exact H|exfalso].
    destruct t' as [|x t' _] using rev_ind; [cbn in H; lia|]. apply (Ht' t' x eq_refl).
    rewrite app_length in H. cbn in H.
    assert (E1 : nth_error (t ++ w) (length t') = Some x).
    { rewrite E, <- app_assoc, nth_error_app2, Nat.sub_diag by lia. reflexivity. }
    rewrite nth_error_app2 in E1 by lia. apply nth_error_In in E1. rewrite Forall_forall in Hw. auto. }
  assert (length t' = length t) by (apply Nat.le_antisymm; eapply G; eauto).
  assert (firstn (length t) (t ++ w) = t) as E1 by (rewrite firstn_app, Nat.sub_diag, firstn_all; apply app_nil_r).
  assert (firstn (length t') (t' ++ w') = t') as E2 by (rewrite firstn_app, Nat.sub_diag, firstn_all; apply app_nil_r).
  rewrite <- E1, <- E2. congruence.
Qed.
Lemma hinted_spec default code l rest : HintedCode default code l rest <-> get_source_language_hint code default = (l, rest).
Proof.
  assert (G : HintedCode default code l rest -> get_source_language_hint code default = (l, rest)).
  { intros H. destruct (language_hint_spec code default) as [(l0 & r0 & E & Hn & Hi & E1)|[Hno E1]]; rewrite E1.
    - subst code. inversion H as [l1 t rest1 Hn1 Ht Hi1 E|s Hs]; subst.
      + assert (Some (l1, rest) = Some (l0, r0)) as E2.
        { rewrite <- (proj2 (split_newline_some (l0 ++ 10%N :: r0) l0 r0)) by auto. symmetry. apply split_newline_some. auto. }
        injection E2 as -> ->. now rewrite (trimmed_end_unique _ _ _ (trim_end_spec l0) Ht).
      + destruct (Hs l0 (trim_end l0) r0 eq_refl Hn (trim_end_spec l0) Hi).
    - inversion H as [l1 t rest1 Hn1 Ht Hi1 E|s Hs]; subst; [|reflexivity].
      destruct Hno. exists l1, rest. repeat split; auto. now rewrite (trimmed_end_unique _ _ _ (trim_end_spec l1) Ht). }
  split; [exact G|]. intros E. destruct (language_hint_spec code default) as [(l0 & r0 & -> & Hn & Hi & E1)|[Hno E1]]; rewrite E1 in E; injection E as <- <-.
  - constructor; auto. apply trim_end_spec.
  - constructor. intros l0 t r0 -> Hn Ht Hi. apply Hno. exists l0, r0. repeat split; auto.
    now rewrite (trimmed_end_unique _ _ _ (trim_end_spec l0) Ht).
Qed.

(** ** Listing *)
Lemma report_all_errs {A} (g : A -> papyri_error) l : forall s,
  report_all (List.map g l) s = Ok tt (set_sink (fold_left (fun k q => sink_add (g q) k) l (st_sink s)) s).
Proof.
  induction l as [|x l IH]; intros s; cbn; [destruct s; reflexivity|]. unfold bind, report, modify. rewrite IH. destruct s; reflexivity.
Qed.
Lemma strip_papyri_spec s t : strip_papyri s = Some t <-> s = t ++ lit ".papyri".
Proof.
  unfold strip_papyri. destruct (strip_prefix _ (rev s)) as [u|] eqn:E.
  - apply strip_prefix_spec in E. apply (f_equal (@rev N)) in E. rewrite rev_involutive, rev_app_distr, rev_involutive in E. subst s.
    split; [intros [= <-]; reflexivity|]. intros H. apply app_inv_tail in H. now subst.
  - split; [discriminate|]. intros ->. rewrite rev_app_distr in E.
    assert (strip_prefix (rev (lit ".papyri")) (rev (lit ".papyri") ++ rev t) = Some (rev t)) by now apply strip_prefix_spec. congruence.
Qed.
Lemma listing_call X call load bs src s p errs files : ngetm bs (lit "path") = Some (VStr p) ->
  x_list_dir X (resolve_relative_path src p false) = Some (errs, files) ->
  evaluate_native_func X call load FileList bs src s =
  (let* out := listed_files p files in ret (VList (List.map VStr out)))
    (set_sink (fold_left (fun k q => sink_add (ModuleErr (IOError q)) k) errs (st_sink s)) s).
Proof.
  intros Hp Hd.
  assert (E : evaluate_native_func X call load FileList bs src s =
    (match x_list_dir X (resolve_relative_path src p false) with
     | None => report (ModuleErr (IOError (resolve_relative_path src p false)));;; fail AlreadyReported
     | Some (errs, files) =>
       report_all (List.map (fun p => ModuleErr (IOError p)) errs);;;
       let* out := listed_files p files in ret (VList (List.map VStr out))
     end) s) by (unfold evaluate_native_func; rewrite Hp; reflexivity).
  rewrite E, Hd. unfold bind at 1. now rewrite report_all_errs.
Qed.
Lemma trimmed_slashes p : exists slashes, p = trim_slashes p ++ slashes /\ Forall (eq (c_of "/"%string)) slashes /\ forall d, trim_slashes p <> d ++ lit "/".
Proof.
  unfold trim_slashes. destruct (trim_end_by_spec (fun c => (c =? 47)%N) p) as (w & E & Hw). exists w. split; [exact E|]. split.
  - apply Forall_forall. rewrite forallb_forall in Hw. intros x Hx. apply Hw, N.eqb_eq in Hx. now subst.
  - intros d H. apply trim_end_by_last in H. discriminate.
Qed.
Lemma listing : forall X call load bs src s p errs files, ngetm bs (lit "path") = Some (VStr p) ->
  x_list_dir X (resolve_relative_path src p false) = Some (errs, files) ->
  (forall f, In f files -> exists stem, f = stem ++ lit ".papyri") ->
  exists out, evaluate_native_func X call load FileList bs src s =
      Ok (VList (List.map VStr out)) (set_sink (fold_left (fun k q => sink_add (ModuleErr (IOError q)) k) errs (st_sink s)) s) /\
    Forall2 (fun f o => exists dir, o ++ lit ".papyri" = dir ++ lit "/" ++ f /\
       exists slashes, p = dir ++ slashes /\ Forall (eq (c_of "/"%string)) slashes /\ forall d, dir <> d ++ lit "/") files out.
Proof.
  intros X call load bs src s p errs files Hp Hd Hf. rewrite (listing_call X call load bs src s p errs files Hp Hd).
  set (s1 := set_sink _ s). clearbody s1. clear Hd.
  assert (G : exists out, listed_files p files s1 = Ok out s1 /\
    Forall2 (fun f o => exists dir, o ++ lit ".papyri" = dir ++ lit "/" ++ f /\
       exists slashes, p = dir ++ slashes /\ Forall (eq (c_of "/"%string)) slashes /\ forall d, dir <> d ++ lit "/") files out).
  { induction files as [|f files IH]; [exists []; split; [reflexivity|constructor]|].
    destruct (Hf f (or_introl eq_refl)) as [stem ->]. destruct IH as (out & E & HF); [intros g Hg; apply Hf; now right|].
    cbn [listed_files]. rewrite (proj2 (strip_papyri_spec _ (trim_slashes p ++ lit "/" ++ stem))) by (now rewrite <- !app_assoc).
    unfold bind. rewrite E. eexists. split; [reflexivity|]. constructor; [|exact HF].
    exists (trim_slashes p). split; [now rewrite <- !app_assoc|apply trimmed_slashes]. }
  destruct G as (out & E & HF). exists out. unfold bind. rewrite E. split; [reflexivity|exact HF].
Qed.
Lemma listing_crash : forall X call load src s, exists f, M_SourceFile.is_papyri_file f = true /\
  forall bs p files, ngetm bs (lit "path") = Some (VStr p) -> In f files ->
  x_list_dir X (resolve_relative_path src p false) = Some ([], files) ->
  evaluate_native_func X call load FileList bs src s = Crash FListing.
Proof.
  intros X call load src s. exists (lit "a.PAPYRI"). split; [reflexivity|]. intros bs p files Hp Hin Hd.
  rewrite (listing_call X call load bs src s p [] files Hp Hd). set (s1 := set_sink _ s). clearbody s1. clear Hd.
  assert (G : listed_files p files s1 = Crash FListing); [|unfold bind; now rewrite G].
  induction files as [|f files IH]; [destruct Hin|]. cbn [listed_files]. destruct Hin as [-> |Hin].
  - destruct (strip_papyri (trim_slashes p ++ lit "/" ++ lit "a.PAPYRI")) as [t|] eqn:E; [|reflexivity]. exfalso.
    apply strip_papyri_spec in E. apply (f_equal (fun l => hd 0%N (rev l))) in E. rewrite app_assoc, !rev_app_distr in E. discriminate.
  - destruct (strip_papyri _) as [t|]; [|reflexivity]. unfold bind. now rewrite (IH Hin).
Qed.
