(** Proofs about markup: what it evaluates to. *)
From Verif Require Import Base BaseFacts M_Text M_TextSubs M_Names M_TagInfo S_Html M_Html M_Sequence M_Render M_Types M_Diag M_Ast M_Value M_State M_Native M_Eval.
From Verif Require Import S_Grammar P_Html P_Types P_ParserPattern S_Prose P_Prose P_ProseLex P_ProseParse P_ProseEval S_Markup P_Markup2 P_Markup4 P_Markup7.
From Verif Require Import M_Parser P_Markup6.

(** ** Attributes *)
Lemma template_value v ps : ValParts v ps -> forall s, template_text ps s = Ok v s.
Proof.
  induction 1 as [|c v ps V IH|w v ps V IH|v ps V IH]; intros s; [reflexivity| | |]; cbn [template_text]; unfold bind, ret; now rewrite IH.
Qed.
Definition attr_map (l : list (str * str)) : nmap (option str) := List.map (fun nv => (fst nv, Some (snd nv))) l.
Lemma nhas_fresh {T} (m : nmap T) n : ~ In n (List.map fst m) -> nhas m n = false.
Proof.
  unfold nhas. induction m as [|[k v] m IH]; cbn; [reflexivity|]. intros H. destruct (str_eqb n k) eqn:E; [|apply IH; tauto].
  apply str_eqb_eq in E. subst k. tauto.
Qed.
Lemma attrs_value X R l a : AttrNodes l a -> forall acc s, (forall n, In n (List.map fst l) -> ~ In n (List.map fst acc)) ->
  compile_attrs (step X R) a acc s = Ok (acc ++ attr_map l) s.
Proof.
  induction 1 as [|n v ps l r L N V A IH]; intros acc s D; [cbn; now rewrite app_nil_r|].
  cbn [compile_attrs]. unfold bind at 1 2 3. cbn [t_option_if]. unfold step at 1. cbn [e_node evaluate_node]. unfold bind at 1 2. rewrite (template_value v ps V).
  unfold ret at 1 2. cbn [or_report coerceM lift]. unfold or_report, coerceM, lift. change (coerce TStr (VStr v)) with (@inl value papyri_error (VStr v)).
  cbn. unfold add_attr. rewrite (nhas_fresh acc n) by (apply D; now left). rewrite (ninsert_fresh acc n) by (apply nhas_fresh, D; now left). cbn.
  fold compile_attrs. rewrite IH.
  - unfold attr_map. cbn. now rewrite <- app_assoc.
  - intros m Hm. rewrite map_app, in_app_iff. cbn. intros [I | [<- | []]]; [revert I; apply D; now right|contradiction].
Qed.
Lemma quoted_encode v : List.concat (List.map quoted_char v) = encode_entities v true.
Proof.
  unfold encode_entities. rewrite flat_map_concat_map. f_equal. apply map_ext. intros c. unfold quoted_char, escaped_char, encode_char. cbn [andb].
  destruct (N.eqb_spec c 34) as [E|_]; [now rewrite E|]. destruct (N.eqb_spec c 39) as [E|_]; [now rewrite E|]. reflexivity.
Qed.
Lemma attrs_render l : flat_map render_attr (attr_map l) = List.concat (List.map attribute l).
Proof.
  rewrite flat_map_concat_map. unfold attr_map. rewrite map_map. f_equal. apply map_ext. intros [n v]. unfold render_attr, attribute, attr_display. cbn [fst snd].
  now rewrite quoted_encode.
Qed.

(** ** Tags *)
Lemma lower_not_doctype others n : LowerName others n -> n <> n_doctype.
Proof. intros (c & l & -> & H & _) E. injection E as -> _. lia. Qed.
Lemma closing_tag n : LowerName [] n -> (if mem n void_tags then [] else lit "</" ++ n ++ lit ">") =
  if negb (is_self_closing n) then lit "</" ++ n ++ lit ">" else if str_eqb n n_doctype then [10%N] else [].
Proof.
  intros L. destruct (mem n void_tags) eqn:M.
  - apply mem_In in M. destruct (void_facts n M) as [_ ->]. cbn [negb]. destruct (str_eqb n n_doctype) eqn:D; [|reflexivity].
    apply str_eqb_eq in D. now contradiction (lower_not_doctype _ _ L).
  - destruct (is_self_closing n) eqn:S; [|reflexivity]. apply (self_closing_void n [] S) in L. apply mem_In in L. congruence.
Qed.
Lemma block_name n : LowerName [] n -> (is_block_name n = true <-> In n block_tags).
Proof.
  intros L. unfold is_block_name. rewrite mem_In. change block_names with (n_doctype :: block_tags). cbn [In]. split; [|auto].
  intros [<- | H]; [|exact H]. now contradiction (lower_not_doctype _ _ L).
Qed.
Lemma el_made n attrs c hs : LowerName [] n -> flat_map (render true) hs = List.concat (List.map html_of c) ->
  ((exists p, In p c /\ Block p) <-> existsb html_is_block hs = true) -> ElHtml (Elem n attrs c) (HTag n (attr_map attrs) (from_iter hs)).
Proof.
  intros L R B. split.
  - exists n, attrs, c. split; [reflexivity|]. unfold TagOf. eauto.
  - cbn [render html_of negb]. rewrite render_from_iter, R, attrs_render, (closing_tag n L). rewrite <- !app_assoc. reflexivity.
  - rewrite html_is_block_tag, block_from_iter. destruct (str_eqb n n_a) eqn:E.
    + apply str_eqb_eq in E. subst n. rewrite <- B. split.
      * inversion 1 as [? ? ? I|? ? p I Bp]; subst; [|eauto]. vm_compute in I. decompose [or] I; try discriminate; contradiction.
      * intros (p & I & Bp). now apply (block_link attrs c p).
    + rewrite (block_name n L). split; [|now constructor]. inversion 1 as [|? ? p I Bp]; subst; [assumption|]. discriminate.
Qed.
Ltac in_list H := vm_compute in H; decompose [or] H; clear H; subst; try contradiction.
Lemma void_kind n : In n void_tags -> content_kind_for n = RequireEmpty.
Proof. intros H. in_list H; reflexivity. Qed.
Lemma inline_kind n : LowerName [] n -> InlineTag n -> content_kind_for n = AllowBlock n_p \/ InlineKind (content_kind_for n).
Proof.
  intros L (S & V & I). unfold content_kind_for. cbv beta zeta.
  assert (J : forall ns items, In (ns, items) item_tags -> mem n (List.map lit ns) = false).
  { intros ns items H. destruct (mem n (List.map lit ns)) eqn:M; [|reflexivity]. apply mem_In in M. now contradiction (I ns items H). }
  repeat lazymatch goal with
  | |- (if mem n (List.map lit ("article" :: _)%string) then _ else _) = _ \/ _ =>
    destruct (mem n _) eqn:M; [exfalso; apply S, mem_In; exact M|clear M]
  | |- (if mem n (List.map lit ("a" :: _)%string) then _ else _) = _ \/ _ => destruct (mem n _); [left; reflexivity|]
  | |- (if mem n (List.map lit ("h1" :: _)%string) then _ else _) = _ \/ _ => destruct (mem n _); [right; now right|]
  | |- (if mem n (List.map lit ?l) then _ else _) = _ \/ _ =>
    assert (mem n (List.map lit l) = false) as -> by (eapply J; unfold item_tags; repeat (first [apply in_eq | apply in_cons]))
  end.
  destruct (is_self_closing n) eqn:E; [|right; now left]. now contradiction V; apply (self_closing_void n []).
Qed.
Lemma holds_kind n c hs : Holds n c -> Forall2 ElHtml c hs ->
  match content_kind_for n with RequireOneOf _ | RequireBlock _ | AllowBlock _ => True | _ => False end /\ Forall (Fits (content_kind_for n)) hs.
Proof.
  intros [T F|ns items I M F] E.
  - assert (K : content_kind_for n = RequireBlock n_p \/ content_kind_for n = AllowBlock n_p) by (destruct T as [T | T]; in_list T; first [left; reflexivity|right; reflexivity]).
    split; [now destruct K as [-> | ->]|]. induction E as [|p h c hs Eh E IH]; constructor; inversion F; subst; auto.
    destruct Eh as [(m & a & d & -> & (a' & d' & ->)) _ B]. split; [eauto|]. apply B in H1. now destruct K as [-> | ->].
  - assert (K : content_kind_for n = RequireOneOf (List.map lit items)).
    { cbn [item_tags In] in I. repeat (destruct I as [I | I]; [injection I as <- <-; in_list M; reflexivity|]). contradiction. }
    rewrite K. split; [exact Logic.I|]. clear M K. induction E as [|p h c hs Eh E IH]; constructor; inversion F as [|? ? (m & a & d & -> & Im) F']; subst; auto.
    destruct Eh as [(m' & a2 & d2 & Q & (a' & d' & ->)) _ B]. injection Q as -> -> ->. split; [eauto|]. cbn [html_is_all]. now apply mem_In.
Qed.

(** ** Elements *)
Section Eval.
  Variable X : externals.
  Definition ElGives (R : evals) (e : expr) (h : html) : Prop := forall s, (let* v := e_node R e THtml in to_htmlM v) s = Ok h s.
  Lemma el_node R e h : ElGives R e h -> NodeGives R (AExpr e) h.
  Proof. intros G b s. cbn [compile_node]. unfold push_result. unfold bind at 1, catch. now rewrite (G s). Qed.
  Lemma tag_gives R n attrs a ns hs : AttrNodes attrs a ->
    (forall s, compile_sequence (step X R) ns (content_kind_for n) (Some n) s = Ok (from_iter hs) s) ->
    ElGives (step X (step X R)) (ETag (TNLit n) a ns) (HTag n (attr_map attrs) (from_iter hs)).
  Proof.
    intros A C s. unfold bind at 1. unfold step at 1. cbn [e_node evaluate_node]. unfold bind at 1. unfold compile_tag, compile_tag_name.
    unfold bind at 1 2, ret at 1. unfold bind at 1. rewrite (attrs_value X R attrs a A [] s) by auto. unfold bind at 1. rewrite C. reflexivity.
  Qed.
  Scheme runn_mut := Minimality for RunNodes Sort Prop with elsn_mut := Minimality for ElsNodes Sort Prop with eln_mut := Minimality for ElNode Sort Prop.
  Combined Scheme nodes_mut from runn_mut, elsn_mut, eln_mut.
  Lemma two N fuel : S (S N) <= fuel -> exists f, fuel = S (S f) /\ N <= S f.
  Proof. destruct fuel as [|[|f]]; [lia|lia|]. intros H. exists f. split; [reflexivity|lia]. Qed.
  Lemma run_no_block c hs : RunHtml c hs -> ((exists p, In p c /\ Block p) <-> existsb html_is_block hs = true).
  Proof.
    intros R. split.
    - intros (p & I & B). exfalso. induction R as [|d ps hs R IH|w ps hs L R IH|q h ps hs E Iq R IH]; [contradiction| | |].
      + destruct I as [<- | I]; [inversion B|auto].
      + apply in_app_iff in I as [I | I]; [|auto]. apply in_map_iff in I as (d & <- & _). inversion B.
      + destruct I as [<- | I]; [contradiction|auto].
    - intros E. exfalso. apply existsb_exists in E as (h & I & B). pose proof (run_inl c hs R) as F. rewrite Forall_forall in F. destruct (F h I). congruence.
  Qed.
  Lemma els_block c hs : Forall2 ElHtml c hs -> ((exists p, In p c /\ Block p) <-> existsb html_is_block hs = true).
  Proof.
    induction 1 as [|p h c hs E F IH]; cbn [existsb].
    - split; [intros (p & [] & _)|discriminate].
    - rewrite orb_true_iff, <- IH, <- (eh_block p h E). split.
      + intros (q & [<- | I] & B); [now left|right; eauto].
      + intros [B | (q & I & B)]; [exists p; split; [now left|exact B]|exists q; split; [now right|exact B]].
  Qed.
  Lemma els_render c hs : Forall2 ElHtml c hs -> flat_map (render true) hs = List.concat (List.map html_of c).
  Proof. induction 1 as [|p h c hs E F IH]; [reflexivity|]. cbn. now rewrite (eh_render p h E), IH. Qed.
  Lemma nodes_eval :
    (forall c ns, RunNodes c ns -> exists N hs, RunHtml c hs /\ forall fuel, N <= fuel -> Forall2 (NodeGives (evals_n X fuel)) ns hs) /\
    (forall c ns, ElsNodes c ns -> exists N hs, Forall2 ElHtml c hs /\ forall fuel, N <= fuel -> ElsGive (evals_n X fuel) ns hs) /\
    (forall p e, ElNode p e -> exists N h, ElHtml p h /\ forall fuel, N <= fuel -> ElGives (evals_n X fuel) e h).
  Proof.
    apply nodes_mut.
    - exists 0, []. split; [constructor|]. constructor.
    - intros c ps ns _ (N & hs & R & G). exists N, (html_text [c] :: hs). split; [now constructor|]. intros fuel H. constructor; [|now apply G]. intros b s. reflexivity.
    - intros w ps ns L _ (N & hs & R & G). exists N, (HText w :: hs). split; [now constructor|]. intros fuel H. constructor; [|now apply G].
      intros b s. cbn [compile_node]. now rewrite (solid_text w) by now apply letters_solid.
    - intros ps ns _ (N & hs & R & G). exists N, (HWhitespace :: hs). split; [now apply (rh_char 32%N)|]. intros fuel H. constructor; [|now apply G]. intros b s. reflexivity.
    - intros p e ps ns _ (N1 & h & Eh & G1) I _ (N2 & hs & R & G2). exists (N1 + N2), (h :: hs). split; [now constructor|].
      intros fuel H. constructor; [apply el_node, G1; lia|apply G2; lia].
    - exists 0, []. split; constructor.
    - intros n ps ns Gn _ (N & hs & E & G). exists N, hs. split; [exact E|]. intros fuel H. apply eg_gap; [exact Gn|now apply G].
    - intros p e ps ns _ (N1 & h & Eh & G1) _ (N2 & hs & R & G2). exists (N1 + N2), (h :: hs). split; [now constructor|].
      intros fuel H. apply eg_more; [apply el_node, G1; lia|apply G2; lia].
    - intros n attrs a V A. exists 2, (HTag n (attr_map attrs) (from_iter [])). split.
      + apply el_made; [now apply void_facts|reflexivity|]. split; [intros (p & [] & _)|discriminate].
      + intros fuel H. destruct (two 0 fuel H) as (f & -> & _). cbn [evals_n]. apply tag_gives; [exact A|]. intros s. now rewrite (void_kind n V).
    - intros n attrs a c ns L I A _ (N & hs & R & G) W. exists (S (S N)), (HTag n (attr_map attrs) (from_iter hs)). split.
      + apply el_made; [exact L|now apply run_render|now apply run_no_block].
      + intros fuel H. destruct (two N fuel H) as (f & -> & Hf). specialize (G (S f) Hf). cbn [evals_n] in *. apply tag_gives; [exact A|]. intros s.
        pose proof (run_inl c hs R) as F. pose proof (run_ends c hs R W) as E. destruct (inline_kind n L I) as [-> | K].
        * now apply sequence_allow.
        * now apply sequence_inline.
    - intros n attrs a c ns L Ho A _ (N & hs & R & G). exists (S (S N)), (HTag n (attr_map attrs) (from_iter hs)). split.
      + apply el_made; [exact L|now apply els_render|now apply els_block].
      + intros fuel H. destruct (two N fuel H) as (f & -> & Hf). specialize (G (S f) Hf). cbn [evals_n] in *. apply tag_gives; [exact A|]. intros s.
        destruct (holds_kind n c hs Ho R) as [K F]. now apply sequence_els.
  Qed.

  (** ** Pages *)
  Definition finish (R : evals) (ns : list node) (b : builder) : EM html :=
    let* b := compile_nodes R ns b in
    match b_into_html b with inl h => ret h | inr e => report (seq_err e);;; ret HEmpty end.
  Lemma finish_cons R n ns b b' s : compile_node R n b s = Ok (None, b') s -> finish R (n :: ns) b s = finish R ns b' s.
  Proof. intros H. unfold finish. unfold bind at 1 3. now rewrite (nodes_cons R n ns b b' s H). Qed.
  Definition Tags (hs : list html) : Prop := Forall (fun h => exists n a c, h = HTag n a c) hs.
  Lemma tags_pop hs : Tags hs -> pop_white hs = hs.
  Proof. intros F. apply pop_ends. intros h l ->. apply Forall_app in F as [_ F]. inversion F as [|? ? (n & a & c & ->) _]; subst. reflexivity. Qed.
  Lemma run_not_empty c hs : RunHtml c hs -> c <> [] -> html_is_empty (from_iter hs) = false.
  Proof.
    intros R N. destruct (from_iter hs) eqn:E; try reflexivity. exfalso. assert (Q : render true (from_iter hs) = []) by now rewrite E.
    rewrite render_from_iter in Q. rewrite (run_render c hs R) in Q. destruct c as [|[d|n a d] c]; [now apply N| |].
    - cbn [List.map List.concat html_of] in Q. apply app_eq_nil in Q as [Q _]. unfold escaped_char in Q. repeat destruct (_ =? _)%N; discriminate.
    - discriminate.
  Qed.
  Definition par (cs : list html) : html := HTag n_p [] (from_iter cs).
  Lemma page_eval after ps ns : PageNodes after ps ns -> exists N hs, Tags hs /\ flat_map (render true) hs = List.concat (List.map html_of ps) /\
    forall fuel, N <= fuel -> forall done s, Tags done ->
    match after with
    | false => finish (evals_n X fuel) ns (outer done None) s = Ok (from_iter (done ++ hs)) s
    | true => forall cs ws, Ends cs -> cs <> [] -> html_is_empty (from_iter cs) = false -> Whites ws ->
        finish (evals_n X fuel) ns (outer done (Some (inner (cs ++ ws)))) s = Ok (from_iter (done ++ par cs :: hs)) s
    end.
  Proof.
    destruct nodes_eval as (HR & _ & HE).
    assert (C : forall fuel n ns done cs ws s, n = AParagraphBreak -> Ends cs -> html_is_empty (from_iter cs) = false -> Whites ws ->
      finish (evals_n X fuel) (n :: ns) (outer done (Some (inner (cs ++ ws)))) s = finish (evals_n X fuel) ns (outer (done ++ [par cs]) None) s).
    { intros fuel n ns0 done cs ws s -> E M W. apply finish_cons. cbn [compile_node]. unfold b_newline. cbn [b_kind b_close_child]. rewrite (para_html cs ws W E), M. reflexivity. }
    assert (TP : forall cs, Tags [par cs]) by (intros cs; constructor; [unfold par; eauto|constructor]).
    induction 1 as [after|after n ps ns Gn P (N & hs & T & R & G)|after p e ps ns En B P (N & hs & T & R & G)|c cs ps ns Nc W Rc P (N & hs & T & R & G)].
    - exists 0, []. split; [constructor|]. split; [reflexivity|]. intros fuel _ done s D. destruct after.
      + intros cs ws E Nn M W. unfold finish. cbn [compile_nodes]. unfold bind, ret.
        assert (Q : b_into_html (outer done (Some (inner (cs ++ ws)))) = match b_into_html (inner (cs ++ ws)) with inr e => inr e | inl h =>
          inl (from_iter (pop_white (if html_is_empty h then done else done ++ [in_tag h (wrap_with (RequireBlock n_p))]))) end) by reflexivity.
        rewrite Q, (para_html cs ws W E), M. change (in_tag (from_iter cs) (wrap_with (RequireBlock n_p))) with (par cs).
        rewrite tags_pop; [reflexivity|]. apply Forall_app. split; [exact D|apply TP].
      + unfold finish. cbn [compile_nodes]. unfold bind, ret. cbn [b_into_html html_is_empty]. rewrite (tags_pop done D). now rewrite app_nil_r.
    - exists N, hs. split; [exact T|]. split; [exact R|]. intros fuel H done s D. destruct after.
      + intros cs ws E Nn M W. destruct Gn as [-> | ->].
        * rewrite (finish_cons _ _ ns _ (outer done (Some (inner ((cs ++ ws) ++ [HWhitespace]))))).
          -- rewrite <- app_assoc. apply (G fuel H done s D cs (ws ++ [HWhitespace]) E Nn M). apply Forall_app. split; [exact W|]. now repeat constructor.
          -- eapply into_next; [now right|intros b s'; reflexivity|now split|]. apply push_inline; [now right|now split|]. destruct cs; [now contradiction Nn|discriminate].
        * rewrite (C fuel _ ns done cs ws s eq_refl E M W). rewrite (G fuel H (done ++ [par cs]) s); [now rewrite <- app_assoc|]. apply Forall_app. split; [exact D|apply TP].
      + erewrite finish_cons by (apply gap_stays; [exact Gn|exact Logic.I]). destruct Gn as [-> | ->]; exact (G fuel H done s D).
    - destruct (HE p e En) as (N1 & h & Eh & G1). exists (N1 + N), (h :: hs). split; [|split].
      + constructor; [|exact T]. destruct (eh_tag p h Eh) as (n & a & c & _ & (a' & c' & ->)). eauto.
      + cbn. now rewrite (eh_render p h Eh), R.
      + assert (Fh : Fits (RequireBlock n_p) h).
        { split; [|now apply (eh_block p h Eh)]. destruct (eh_tag p h Eh) as (n & a & c & _ & (a' & c' & ->)). eauto. }
        assert (Dh : forall done, Tags done -> Tags (done ++ [h])) by (intros done D; apply Forall_app; split; [exact D|]; constructor; [exact (proj1 Fh)|constructor]).
        intros fuel H done s D. assert (H1 : N1 <= fuel) by lia. assert (H2 : N <= fuel) by lia. destruct after.
        * intros cs ws E Nn M W. rewrite (finish_cons _ _ ns _ (outer (done ++ [par cs; h]) None)).
          -- rewrite (G fuel H2 (done ++ [par cs; h]) s); [now rewrite <- app_assoc|]. apply Forall_app. split; [exact D|]. constructor; [unfold par; eauto|]. constructor; [exact (proj1 Fh)|constructor].
          -- eapply gives_push; [apply el_node, (G1 fuel H1)|]. destruct Fh as [(n & a & c & ->) Bh]. unfold push_fuel. remember 3 as f. cbn [b_push html_is_empty require_inline]. rewrite Bh. cbn [b_close_child].
             rewrite (para_html cs ws W E), M. cbn [html_is_whitespace]. change (in_tag (from_iter cs) (wrap_with (RequireBlock n_p))) with (par cs). cbn iota.
             rewrite <- app_assoc. destruct done; reflexivity.
        * erewrite finish_cons; [|eapply gives_push; [apply el_node, (G1 fuel H1)|now apply push_fits]].
          rewrite (G fuel H2 _ s (Dh done D)). now rewrite <- app_assoc.
    - destruct (HR c cs Rc) as (N1 & hc & Rh & G1). exists (N1 + N), (par hc :: hs). split; [|split].
      + constructor; [unfold par; eauto|exact T].
      + cbn [flat_map List.map List.concat]. rewrite R. f_equal. unfold par. cbn [render html_of]. rewrite render_from_iter, (run_render c hc Rh). reflexivity.
      + intros fuel H done s D. assert (Nh : hc <> []) by (intros ->; inversion Rh; subst; now apply Nc).
        pose proof (run_ends c hc Rh W) as E. unfold finish. unfold bind at 1.
        rewrite (para_first (evals_n X fuel) cs hc None (RequireBlock n_p) done ns s (G1 fuel ltac:(lia)) (or_intror eq_refl) (run_inl c hc Rh) Nh E).
        specialize (G fuel ltac:(lia) done s D hc [] E Nh (run_not_empty c hc Rh Nc) (Forall_nil _)). rewrite app_nil_r in G. exact G.
  Qed.
  Lemma compile_page path text ps : (forall l, x_regex X (regex_text regex_escape l) <> None) -> Page false ps text ->
    exists N h, render true h = List.concat (List.map html_of ps) /\ forall fuel s, N <= fuel ->
      compile X fuel path text s = Ok (h, []) (set_heap (st_heap s ++ [Frame (Some (st_root s)) [] []]) s).
  Proof.
    intros Rx P.
    destruct (parse_page (x_decode X) (fun s => match x_regex X s with Some _ => true | None => false end) path text ps) as (ns & Pn & E); [|exact P|].
    { intros l. destruct (x_regex X (regex_text regex_escape l)) eqn:Q; [reflexivity|]. now contradiction (Rx l). }
    destruct (page_eval false ps ns Pn) as (N & hs & T & R & G). exists N, (from_iter hs). rewrite render_from_iter. split; [exact R|]. intros fuel s H.
    unfold compile, compile_source, parse_source. unfold bind at 1, pure. rewrite E. unfold bind at 1. cbn [report_all]. unfold ret at 1. cbn beta iota.
    assert (Q : forall s, compile_sequence (evals_n X fuel) ns (RequireBlock n_p) None s = Ok (from_iter hs) s) by (intros s'; exact (G fuel H [] s' (Forall_nil _))).
    unfold with_compiler. rewrite Q. destruct s. reflexivity.
  Qed.
End Eval.
