(** From source text to the syntax tree *)
From Verif Require Import Base BaseFacts M_Token M_Tokenizer M_Diag M_Queue M_Ast M_Parser.
From Verif Require Import S_Front S_Grammar S_Parser P_Escape P_ParserW P_ParserSound P_ParserComplete P_ParserLex P_ParserEnds.

Lemma clean_spec ds : clean_b ds = true <-> NoErrors ds.
Proof.
  unfold clean_b, NoErrors. rewrite forallb_forall, Forall_forall. split; intros H x Hx; specialize (H x Hx).
  - destruct x; try discriminate; eauto.
  - destruct H as [w ->]. auto.
Qed.
Lemma clean_false ds : clean_b ds = false <-> ~ NoErrors ds.
Proof. rewrite <- clean_spec. destruct (clean_b ds); intuition congruence. Qed.

Section All.
  Variable path : str.
  Variable decode : str -> str.
  Variable regex_ok : str -> bool.
  Hypothesis regex_ok_all : forall ps, regex_ok (regex_text regex_escape ps) = true.
  Lemma spec_takes {A} n (m : PM A) k G toks d : Spec n m k G -> Forall LexTok toks -> length toks < n -> Takes toks d (m (PState toks d)).
  Proof.
    intros H X L. specialize (H true toks L X d). unfold Takes. destruct (m (PState toks d)) as [a s|s| |]; auto.
    - destruct H as (u & ds & E1 & E2 & _). eauto.
    - destruct H as (u & ds & E1 & E2 & E3). exists u, ds. rewrite clean_false in E3. auto.
  Qed.
  Lemma document_accepted toks ns d : Forall LexTok toks -> Document path decode regex_escape toks ns ->
    exists ds, NoErrors ds /\ parse_root path decode regex_ok (PState toks d) = POk ns (PState [] (d ++ ds)).
  Proof.
    intros X D. destruct (parse_root_comp path decode regex_ok regex_ok_all toks ns D X) as (ds & C & H). exists ds. split; [apply clean_spec; auto|apply H].
  Qed.
  Lemma document_unique toks ns ns' : Forall LexTok toks -> Document path decode regex_escape toks ns -> Document path decode regex_escape toks ns' -> ns = ns'.
  Proof.
    intros X D D'. destruct (document_accepted toks ns [] X D) as (ds & _ & H). destruct (document_accepted toks ns' [] X D') as (ds' & _ & H'). congruence.
  Qed.
  Lemma parse_total text toks errs : tokenize text true = Ret (toks, errs) -> (forall place, ~ In (TokenInvalidEscape, place) errs) -> exists ns ds, Forall LexTok toks /\
    parse decode regex_ok path text = Ret (ns, List.map (fun e => SyntaxErr (fst e)) errs ++ ds) /\ (NoErrors ds -> Document path decode regex_escape toks ns).
  Proof.
    intros T G. pose proof (token_lexeme _ _ _ T G) as X.
    destruct (parse_root_total path decode regex_ok regex_ok_all toks (List.map (fun e => SyntaxErr (fst e)) errs) X) as (ns & ds & E & D).
    exists ns, ds. unfold parse. rewrite T. cbn [obind fst snd]. rewrite E. do 2 (split; auto). intros N. apply D. apply clean_spec. auto.
  Qed.
  Lemma no_errors_tok errs ds : NoErrors (List.map (fun e : syntax_error * (nat * nat) => SyntaxErr (fst e)) errs ++ ds) <-> errs = [] /\ NoErrors ds.
  Proof.
    unfold NoErrors. rewrite Forall_app. split; intros [A B].
    - split; auto. destruct errs; auto. inversion A; subst. destruct H1; discriminate.
    - subst. split; [constructor|auto].
  Qed.
  Lemma parse_clean text toks errs ns ds : tokenize text true = Ret (toks, errs) -> parse decode regex_ok path text = Ret (ns, ds) -> NoErrors ds -> errs = [].
  Proof.
    intros T. unfold parse. rewrite T. cbn [obind fst snd].
    assert (Z : forall s', said (PState toks (List.map (fun e => SyntaxErr (fst e)) errs)) <= said s' -> NoErrors (ps_diags s') -> errs = []).
    { intros s' E N. destruct errs as [|e errs']; [reflexivity|]. exfalso. unfold said in E. cbn [ps_diags List.map filter length] in E.
      destruct (filter _ (ps_diags s')) as [|x l] eqn:F; [cbn in E; lia|]. assert (I : In x (x :: l)) by now left. rewrite <- F in I. apply filter_In in I as [I Z].
      unfold NoErrors in N. rewrite Forall_forall in N. destruct (N x I) as [w ->]. discriminate. }
    destruct (parse_root _ _ _ _) as [ns' s'|s'| |] eqn:E; try discriminate; intros [= <- <-] N; apply (Z s'); auto; [exact (parse_root_said _ _ _ _ ns' s' (or_introl E))|exact (parse_root_said _ _ _ _ [] s' (or_intror E))].
  Qed.
  Lemma parse_accepts text ns :
    (exists ds, parse decode regex_ok path text = Ret (ns, ds) /\ NoErrors ds) <->
    (exists toks, tokenize text true = Ret (toks, []) /\ Document path decode regex_escape toks ns).
  Proof.
    split.
    - intros (ds' & P & N). destruct (tokenize text true) as [[toks errs]| |] eqn:T; try (unfold parse in P; rewrite T in P; discriminate P).
      pose proof (parse_clean _ _ _ _ _ T P N) as ->. exists toks. split; [reflexivity|].
      destruct (parse_total text toks [] T) as (ns0 & ds0 & X & P0 & D); [intros ? []|]. rewrite P in P0. injection P0 as -> ->. auto.
    - intros (toks & T & D'). destruct (parse_total text toks [] T) as (ns0 & ds & X & P & D); [intros ? []|].
      cbn [List.map app] in *. destruct (document_accepted toks ns [] X D') as (ds' & N & E).
      unfold parse in *. rewrite T in *. cbn [obind fst snd List.map] in *. rewrite E in *. eauto.
  Qed.
End All.

Lemma regex_escape_literal s : Literal (regex_escape s) s.
Proof.
  assert (M : forall c, is_meta c = true <-> In c regex_special).
  { intro c. unfold is_meta. rewrite existsb_exists. split.
    - intros (x & H & E). apply N.eqb_eq in E. now subst.
    - intro H. exists c. split; [exact H|apply N.eqb_refl]. }
  induction s as [|c s IH]; cbn [regex_escape flat_map]; [constructor|]. destruct (is_meta c) eqn:E.
  - apply M in E. now apply lit_escaped.
  - cbn [app]. apply lit_plain; [|exact IH]. rewrite <- M. congruence.
Qed.
Lemma literal_unique r s s' : Literal r s -> Literal r s' -> s = s'.
Proof.
  intro H. revert s'. induction H as [|c r s N H IH|c r s I H IH]; intros s' H'; inversion H'; subst;
    try solve [reflexivity | f_equal; auto];
    match goal with X : ~ In 92%N _ |- _ => exfalso; apply X; now left end.
Qed.
