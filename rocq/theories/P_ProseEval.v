(** Proofs about prose: what it evaluates to. *)
From Verif Require Import Base BaseFacts M_Text M_TextSubs M_Names M_TagInfo M_Html M_Sequence M_Render M_Types M_Diag M_Ast M_State M_Native M_Eval.
From Verif Require Import S_TextSubs P_TextSubs P_Html S_Prose P_Prose P_ProseLex P_ProseParse.

Definition Solid (t : str) : Prop := t <> [] /\ Forall (fun c => is_ascii_whitespace c = false) t.
Lemma typeset_solid b w u : Typeset b w u -> Forall (fun c => is_ascii_whitespace c = false) w -> Forall (fun c => is_ascii_whitespace c = false) u.
Proof.
  induction 1 as [b|b q o w u O I T IH|b q o w u O I T IH|b w u T IH|b w u T IH|b c w u N S T IH]; intros F.
  - constructor.
  - inversion F; subst. constructor; [|auto]. cbn in I. destruct I as [[= <- <-] | [[= <- <-] | []]]; reflexivity.
  - inversion F; subst. constructor; [|auto]. cbn in I. destruct I as [[= <- <-] | [[= <- <-] | []]]; reflexivity.
  - apply Forall_app in F as [_ F]. constructor; [reflexivity|auto].
  - apply Forall_app in F as [_ F]. constructor; [reflexivity|auto].
  - inversion F; subst. constructor; auto.
Qed.
Lemma documented_solid p r : Documented p r -> Solid r.
Proof. destruct 1; (split; [discriminate|repeat constructor]). unfold is_ascii_whitespace. rewrite !orb_false_iff, !N.eqb_neq. lia. Qed.
Lemma substituted_solid u t : Substituted u t -> Solid u -> Solid t.
Proof.
  intros H [N F]. split.
  - destruct H as [|p r rest out D _ _|c rest out _ _]; [exact N| |discriminate]. apply documented_solid in D as [D _]. now destruct r.
  - clear N. induction H as [|p r rest out D L H IH|c rest out D H IH]; [constructor| |].
    + apply Forall_app in F as [_ F]. apply Forall_app. split; [now destruct (documented_solid _ _ D)|auto].
    + inversion F; subst. constructor; auto.
Qed.
Lemma solid_text t : Solid t -> html_text t = HText t.
Proof.
  intros [N F]. destruct t as [|c t]; [now contradiction N|]. inversion F as [|? ? W _]; subst. destruct t; [|reflexivity]. cbn [html_text].
  unfold is_ascii_whitespace in W. rewrite !orb_false_iff in W. destruct W as [[[[-> _] ->] _] _]. reflexivity.
Qed.
Lemma solid_white t : Solid t -> html_is_whitespace (HText t) = false.
Proof. intros [N F]. destruct t as [|c t]; [now contradiction N|]. inversion F; subst. cbn. unfold is_whitespace. cbn. now rewrite H1. Qed.

(** ** The builder *)
Fixpoint pieces (ts : list str) : list html :=
  match ts with [] => [] | [t] => [HText t] | t :: ts => HText t :: HWhitespace :: pieces ts end.
Definition tag_of (ts : list str) : html := HTag n_p [] (from_iter (pieces ts)).
Notation outer done next := (Builder None (RequireBlock n_p) done next).
Notation inner cs := (Builder (Some n_p) RequireInlineNoLineBreaks cs None).
Definition light (x : html) : Prop := (exists t, x = HText t /\ Solid t) \/ x = HWhitespace.
Lemma push_first t done : Solid t -> b_push push_fuel (HText t) (outer done None) = Ret (None, outer done (Some (inner [HText t]))).
Proof. intros S. pose proof (solid_white t S) as W. cbn [html_is_whitespace] in W. cbn. now rewrite W. Qed.
Lemma push_next x done c cs : light x -> b_push push_fuel x (outer done (Some (inner (c :: cs)))) = Ret (None, outer done (Some (inner ((c :: cs) ++ [x])))).
Proof. intros [(t & -> & _) | ->]; reflexivity. Qed.

Section Eval.
  Variables (X : externals) (R : evals).
  Lemma node_light n x b b' s : (n = AWhitespace /\ x = HWhitespace \/ exists t, n = AText t /\ x = HText t /\ Solid t) ->
    b_push push_fuel x b = Ret (None, b') -> compile_node R n b s = Ok (None, b') s.
  Proof.
    intros H P. assert (Q : compile_node R n b s = push_piece x b s).
    { destruct H as [[-> ->] | (t & -> & -> & S)]; [reflexivity|]. cbn [compile_node]. now rewrite (solid_text t S). }
    rewrite Q. unfold push_piece, bind, pure. rewrite P. reflexivity.
  Qed.
  Lemma nodes_cons n ns b b' s : compile_node R n b s = Ok (None, b') s -> compile_nodes R (n :: ns) b s = compile_nodes R ns b' s.
  Proof. intros H. cbn [compile_nodes]. unfold bind at 1. rewrite H. reflexivity. Qed.

  Lemma words_inner ts : forall us c cs done ns s, Forall2 (fun u t => t = substitutions u /\ Solid t) us ts -> ts <> [] ->
    compile_nodes R (word_nodes us ++ ns) (outer done (Some (inner (c :: cs)))) s =
    compile_nodes R ns (outer done (Some (inner ((c :: cs) ++ pieces ts)))) s.
  Proof.
    induction ts as [|t ts IH]; intros us c cs done ns s F N; [congruence|].
    inversion F as [|u ? us' ? [E S] F']; subst. destruct ts as [|t2 ts].
    - inversion F'; subst. cbn [word_nodes app pieces]. unfold text_node. erewrite nodes_cons; [reflexivity|].
      eapply node_light; [right; eauto|]. apply push_next. left. eauto.
    - destruct us' as [|u2 us']; [inversion F'|].
      change (word_nodes (u :: u2 :: us')) with (text_node u :: AWhitespace :: word_nodes (u2 :: us')). cbn [app].
      erewrite nodes_cons; [|eapply node_light; [right; unfold text_node; eauto|apply push_next; left; eauto]]. cbn [app].
      erewrite nodes_cons; [|eapply node_light; [left; eauto|apply push_next; now right]]. cbn [app].
      rewrite (IH (u2 :: us') _ _ _ _ _ F') by discriminate. cbn [app]. rewrite <- !app_assoc. reflexivity.
  Qed.
  Lemma words_outer us ts done ns s : Forall2 (fun u t => t = substitutions u /\ Solid t) us ts -> ts <> [] ->
    compile_nodes R (word_nodes us ++ ns) (outer done None) s = compile_nodes R ns (outer done (Some (inner (pieces ts)))) s.
  Proof.
    intros F N. destruct F as [|u t us ts [-> S] F]; [congruence|]. destruct ts as [|t2 ts].
    - inversion F; subst. cbn [word_nodes app pieces]. unfold text_node. erewrite nodes_cons; [reflexivity|].
      eapply node_light; [right; eauto|]. now apply push_first.
    - destruct us as [|u2 us]; [inversion F|].
      change (word_nodes (u :: u2 :: us)) with (text_node u :: AWhitespace :: word_nodes (u2 :: us)). cbn [app].
      erewrite nodes_cons; [|eapply node_light; [right; unfold text_node; eauto|now apply push_first]].
      erewrite nodes_cons; [|eapply node_light; [left; eauto|apply push_next; now right]]. cbn [app].
      rewrite (words_inner (t2 :: ts) _ _ _ _ _ _ F) by discriminate. reflexivity.
  Qed.

  Lemma pop_white_last l x : html_is_whitespace x = false -> pop_white (l ++ [x]) = l ++ [x].
  Proof. intros W. unfold pop_white. rewrite rev_app_distr. cbn [rev app pop_white_rev]. rewrite W. cbn [rev]. now rewrite rev_involutive. Qed.
  Lemma pieces_last ts : ts <> [] -> Forall Solid ts -> exists l t, pieces ts = l ++ [HText t] /\ Solid t.
  Proof.
    induction ts as [|t ts IH]; [congruence|]. intros _ F. inversion F; subst. destruct ts as [|t2 ts]; [now exists [], t|].
    destruct IH as (l & x & E & S); [discriminate|assumption|]. exists (HText t :: HWhitespace :: l), x.
    change (pieces (t :: t2 :: ts)) with (HText t :: HWhitespace :: pieces (t2 :: ts)). now rewrite E.
  Qed.
  Lemma pieces_not_empty ts : ts <> [] -> Forall Solid ts -> html_is_empty (from_iter (pieces ts)) = false.
  Proof.
    intros N F. destruct (pieces_last ts N F) as (l & t & E & [Nt _]).
    destruct (from_iter (pieces ts)) eqn:H; try reflexivity. exfalso.
    pose proof (render_from_iter false (pieces ts)) as G. rewrite H, E, flat_map_app in G. cbn in G.
    symmetry in G. apply app_eq_nil in G as [_ G]. rewrite app_nil_r in G. contradiction.
  Qed.
  Lemma inner_html ts : ts <> [] -> Forall Solid ts -> b_into_html (inner (pieces ts)) = inl (from_iter (pieces ts)).
  Proof.
    intros N F. destruct (pieces_last ts N F) as (l & t & E & S). cbn [b_into_html]. destruct (pieces ts) eqn:Ep; [now destruct l|].
    rewrite <- Ep in *. cbn [html_is_empty]. rewrite E. rewrite pop_white_last; [reflexivity|now apply solid_white].
  Qed.
  Lemma close_words ts done : ts <> [] -> Forall Solid ts ->
    b_newline (outer done (Some (inner (pieces ts)))) = (None, outer (done ++ [tag_of ts]) None).
  Proof.
    intros N F. unfold b_newline. cbn [b_kind b_close_child]. rewrite (inner_html ts N F), (pieces_not_empty ts N F). reflexivity.
  Qed.
  Definition final (done : list html) (ts : list str) : builder := outer done (Some (inner (pieces ts))).
  Lemma final_html done ts : ts <> [] -> Forall Solid ts -> b_into_html (final done ts) = inl (from_iter (done ++ [tag_of ts])).
  Proof.
    intros N F. unfold final. remember (inner (pieces ts)) as c eqn:Ec. cbn [b_into_html]. subst c.
    rewrite (inner_html ts N F). cbn beta iota. rewrite (pieces_not_empty ts N F). rewrite pop_white_last by reflexivity. reflexivity.
  Qed.

  Definition Shown (us ts : list str) : Prop := Forall2 (fun u t => t = substitutions u /\ Solid t) us ts /\ ts <> [].
  Lemma shown_solid us ts : Shown us ts -> Forall Solid ts.
  Proof. intros [F _]. induction F as [|u t us ts [_ S] F IH]; constructor; auto. Qed.
  Lemma pars_outer uss tss : Forall2 Shown uss tss -> forall done s, tss <> [] ->
    exists front ts, done ++ map tag_of tss = front ++ [tag_of ts] /\ ts <> [] /\ Forall Solid ts /\
      compile_nodes R (par_nodes uss) (outer done None) s = Ok (final front ts) s.
  Proof.
    induction 1 as [|us ts uss tss S F IH]; intros done s N; [congruence|]. pose proof (shown_solid _ _ S) as So. destruct S as [S1 S2].
    destruct F as [|us2 ts2 uss tss S F].
    - exists done, ts. split; [reflexivity|]. split; [exact S2|]. split; [exact So|]. cbn [par_nodes].
      rewrite <- (app_nil_r (word_nodes us)). rewrite (words_outer us ts done [] s S1 S2). reflexivity.
    - change (par_nodes (us :: us2 :: uss)) with (word_nodes us ++ AParagraphBreak :: par_nodes (us2 :: uss)).
      rewrite (words_outer us ts done _ s S1 S2).
      destruct (IH (done ++ [tag_of ts]) s) as (front & ts' & E & N' & So' & C); [discriminate|].
      exists front, ts'. split; [rewrite <- E, <- app_assoc; reflexivity|]. split; [exact N'|]. split; [exact So'|]. rewrite <- C.
      apply nodes_cons. cbn [compile_node]. rewrite (close_words ts done S2 So). reflexivity.
  Qed.
  Lemma sequence_pars uss tss s : Forall2 Shown uss tss ->
    compile_sequence R (par_nodes uss) (RequireBlock n_p) None s = Ok (from_iter (map tag_of tss)) s.
  Proof.
    intros F. unfold compile_sequence. destruct F as [|us ts uss tss S F]; [reflexivity|].
    destruct (pars_outer (us :: uss) (ts :: tss)) with (done := @nil html) (s := s) as (front & ts' & E & N & So & C);
      [now constructor|discriminate|]. unfold bind at 1, b_new. rewrite C, (final_html front ts' N So), <- E. reflexivity.
  Qed.
End Eval.

(** ** Rendering *)
Lemma escaped_encode t : escaped t = encode_entities t false.
Proof. unfold escaped, encode_entities. now rewrite flat_map_concat_map. Qed.
Lemma render_pieces ts : flat_map (render true) (pieces ts) = spaced (map escaped ts).
Proof.
  induction ts as [|t ts IH]; [reflexivity|]. destruct ts as [|t2 ts]; [cbn; now rewrite app_nil_r, escaped_encode|].
  change (pieces (t :: t2 :: ts)) with (HText t :: HWhitespace :: pieces (t2 :: ts)). cbn [flat_map render]. rewrite IH, <- escaped_encode. reflexivity.
Qed.
Lemma render_pieces_bare ts : flat_map (render false) (pieces ts) = spaced ts.
Proof.
  induction ts as [|t ts IH]; [reflexivity|]. destruct ts as [|t2 ts]; [cbn; now rewrite app_nil_r|].
  change (pieces (t :: t2 :: ts)) with (HText t :: HWhitespace :: pieces (t2 :: ts)). cbn [flat_map render]. rewrite IH. reflexivity.
Qed.
Lemma render_tags tss : render true (from_iter (map tag_of tss)) = page tss /\ render false (from_iter (map tag_of tss)) = bare_page tss.
Proof.
  rewrite !render_from_iter. unfold page, bare_page. induction tss as [|ts tss [IH1 IH2]]; [split; reflexivity|].
  cbn [map flat_map List.concat]. rewrite IH1, IH2. split; f_equal.
  - unfold tag_of. cbn [render]. rewrite render_from_iter, render_pieces. reflexivity.
  - unfold tag_of. cbn [render]. rewrite render_from_iter, render_pieces_bare. reflexivity.
Qed.

Lemma word_chars w : Word w -> Forall (fun c => is_ascii_whitespace c = false) w.
Proof. intros [_ F]. eapply Forall_impl; [|exact F]. intros c. apply not_white. Qed.
Lemma words_words s ws : Words s ws -> Forall Word ws.
Proof. induction 1; constructor; auto. Qed.
Lemma pars_words s ps : Paragraphs s ps -> Forall (Forall Word) ps.
Proof. induction 1 as [s ws H|s ws g t ps H B C H' IH]; constructor; auto; eapply words_words; exact H. Qed.
Lemma laid_words s ps : Laid s ps -> Forall (Forall Word) ps.
Proof. destruct 1; [constructor|]. eapply pars_words; eassumption. Qed.
Lemma shown_word w u : Word w -> Typeset [] w u -> u <> [] -> Solid (substitutions u).
Proof.
  intros W T N. eapply substituted_solid; [apply substituted_ok|]. split; [exact N|]. eapply typeset_solid; [exact T|]. now apply word_chars.
Qed.
Lemma shown_words ws us : Forall Word ws -> Forall2 (fun w u => Typeset [] w u /\ u <> []) ws us -> us <> [] ->
  Shown us (map substitutions us) /\ Forall2 Written ws (map substitutions us).
Proof.
  intros W F N. split; [split|].
  - clear N. induction F as [|w u ws us [T Nu] F IH]; cbn [map]; constructor; [|now apply IH; inversion W].
    split; [reflexivity|]. eapply shown_word; [inversion W; eassumption|exact T|exact Nu].
  - destruct us; [congruence|discriminate].
  - clear N. induction F as [|w u ws us [T Nu] F IH]; cbn [map]; constructor; [|now apply IH; inversion W].
    exists u. split; [exact T|apply substituted_ok].
Qed.

(** Compiling prose *)
Lemma compile_prose X fuel path text s ps : Prose text -> Laid text ps ->
  exists tss, Forall2 (Forall2 Written) ps tss /\ let h := from_iter (map tag_of tss) in
    render true h = page tss /\ render false h = bare_page tss /\
    compile X fuel path text s = Ok (h, []) (set_heap (st_heap s ++ [Frame (Some (st_root s)) [] []]) s).
Proof.
  intros P L.
  destruct (parse_prose path (x_decode X) (fun s => match x_regex X s with Some _ => true | None => false end) text ps P L) as (uss & F & Fn & E).
  pose proof (laid_words _ _ L) as W.
  exists (map (map substitutions) uss).
  assert (G : Forall2 (Forall2 Written) ps (map (map substitutions) uss) /\ Forall2 Shown uss (map (map substitutions) uss)).
  { clear - F Fn W. induction F as [|ws us ps uss H F IH]; cbn [map]; [split; constructor|].
    inversion Fn; inversion W; subst. destruct IH as [I1 I2]; auto. destruct (shown_words ws us) as [J1 J2]; auto. }
  destruct G as [G1 G2]. split; [exact G1|]. destruct (render_tags (map (map substitutions) uss)) as [R1 R2].
  cbv zeta. split; [exact R1|]. split; [exact R2|].
  unfold compile, compile_source, parse_source. unfold bind at 1, pure. rewrite E. unfold bind at 1. cbn [report_all]. unfold ret at 1. cbn beta iota.
  unfold with_compiler. rewrite (sequence_pars (evals_n X fuel) uss _ _ G2). destruct s. reflexivity.
Qed.
