(** Two texts divided by a blank line *)
From Verif Require Import Base BaseFacts M_Token M_Tokenizer M_Diag M_Queue M_Ast M_Parser P_Join S_Text S_Front S_Parser S_Layout S_Lex S_Refill S_Trail S_Join
  P_Front P_Lex P_Cut P_LexStrip P_Layout P_Layout3 P_Layout4 P_Refill P_ParserEnds P_TrailText.

Lemma root_no_err src decode regex_ok s : match parse_root src decode regex_ok s with PErr _ => False | _ => True end.
Proof.
  unfold parse_root, with_fuel. generalize (S (length (ps_tokens s))) as n. intro n.
  assert (K : match parse_nodes_until (r_node (parsers_n src decode regex_ok n)) (fun _ => false) s with PErr _ => False | _ => True end).
  { unfold parse_nodes_until, pbind. assert (exists u, skip_whitespace s = POk tt u) as (u & ->).
    { unfold skip_whitespace, poll_if, peek, pbind, pret, poll. destruct (ps_tokens s) as [|x l] eqn:El; cbn [hd_error]; [eauto|]. destruct (tok_is_whitespace x); [rewrite El|]; eauto. }
    unfold with_fuel. generalize (S (length (ps_tokens u))) as k. intro k.
    assert (Q : forall node n st, match nodes_loop node (fun _ => false) n st with PErr _ => False | _ => True end).
    { intros node. clear. induction n as [|n IH]; intro st; [exact I|]. cbn [nodes_loop]. unfold pbind, poll. destruct (ps_tokens st) as [|x l]; [exact I|]. unfold p_ok.
      destruct (node x _) as [a v|v| |]; try exact I; specialize (IH v); destruct (nodes_loop node _ n v); auto. }
    specialize (Q (r_node (parsers_n src decode regex_ok n)) k u). destruct (nodes_loop _ _ k u); auto. }
  unfold pbind. destruct (parse_nodes_until _ _ s); auto.
Qed.
Lemma clean_root decode regex_ok path text nodes ds : parse decode regex_ok path text = Ret (nodes, ds) -> NoErrors ds ->
  exists toks s, tokenize text true = Ret (toks, []) /\ parse_root path decode regex_ok (PState toks []) = POk nodes s /\ ds = ps_diags s /\ said s = 0.
Proof.
  intros P N. destruct (parse_clean_tokens _ _ _ _ _ _ P N) as (toks & s & [H|(T & R & _)]); [exists toks, s; exact H|].
  pose proof (root_no_err path decode regex_ok (PState toks [])) as X. rewrite R in X. destruct X.
Qed.

Lemma gap_token_same g r : GapToken g r -> forall g', Forall2 Same g g' -> exists r', GapToken g' r' /\ Forall2 Same r r'.
Proof.
  assert (A : forall (P : token_kind -> Prop) l l', Forall2 Same l l' -> Forall (fun t => P (tk_kind t)) l -> Forall (fun t => P (tk_kind t)) l').
  { intros P l l' F. induction F as [|t t' l l' [K _] F IH]; intro H; [constructor|]. inversion H; subst. constructor; [now rewrite <- K|auto]. }
  intros [g0 C|b t a C K F|b t a K F] g' S.
  - exists []. split; [|constructor]. apply Gap_comment_only. exact (A (fun k => k = Comment) _ _ S C).
  - apply Forall2_app_inv_l in S as (b' & a' & Sb & Sa & ->). inversion Sa as [|? t' ? c' St Sc]; subst. exists [t']. split; [|now constructor]. destruct St as [Kt _].
    apply Gap_space; [exact (A (fun k => k = Comment) _ _ Sb C)|congruence|exact (A (fun k => k <> Newline) _ _ Sc F)].
  - apply Forall2_app_inv_l in S as (b' & a' & Sb & Sa & ->). inversion Sa as [|? t' ? c' St Sc]; subst. exists [t']. split; [|now constructor]. destruct St as [Kt _].
    apply Gap_break; [congruence|exact (A (fun k => k <> Newline) _ _ Sc F)].
Qed.
Lemma same_significant t t' : Same t t' -> Significant t -> Significant t'.
Proof. intros [K _]. unfold Significant. now rewrite K. Qed.
Lemma same_gap g g' : Forall2 Same g g' -> Gap g -> Gap g'.
Proof. unfold Gap. intro F. induction F as [|t t' l l' [K T] F IH]; intro H; [constructor|]. inversion H as [|? ? N H']; subst. constructor; [|auto]. unfold Significant in *. now rewrite <- K. Qed.
Lemma stripped_same l out : Stripped l out -> forall l', Forall2 Same l l' -> exists out', Stripped l' out' /\ Forall2 Same out out'.
Proof.
  induction 1 as [gap r Hg G|gap r t rest out Hg G Sig St IH]; intros l' F.
  - destruct (gap_token_same _ _ G _ F) as (r' & G' & F'). exists r'. split; [|exact F']. apply Str_end; [exact (same_gap _ _ F Hg)|exact G'].
  - apply Forall2_app_inv_l in F as (g' & x & Fg & Fx & ->). inversion Fx as [|? t' ? rest' Ft Fr]; subst. destruct (gap_token_same _ _ G _ Fg) as (r' & G' & F'). destruct (IH _ Fr) as (out' & St' & Fo).
    exists (r' ++ t' :: out'). split; [|apply Forall2_app; [exact F'|now constructor]]. apply Str_next; [exact (same_gap _ _ Fg Hg)|exact G'|exact (same_significant _ _ Ft Sig)|exact St'].
Qed.
(** the second text begins with a significant token *)
Lemma stripped_solid t l out : Significant t -> Stripped (t :: l) out -> exists out', out = t :: out' /\ Stripped l out'.
Proof.
  intros Sig St. remember (t :: l) as m eqn:E. destruct St as [gap r Hg G|gap r t0 rest out0 Hg G Sig0 St0].
  - subst gap. inversion Hg. contradiction.
  - destruct gap as [|y gap]; cbn [app] in E.
    + injection E as -> ->. apply (gap_function [] r []) in G; [|now apply Gap_comment_only]. subst r. exists out0. auto.
    + injection E as -> E. inversion Hg. contradiction.
Qed.
Lemma stripped_join ta toks : Stripped ta toks -> EndsSolid ta -> forall tg w t tb out, Gap tg -> GapToken tg [w] -> Significant t -> Stripped (t :: tb) (t :: out) -> Stripped (ta ++ tg ++ t :: tb) (toks ++ w :: t :: out).
Proof.
  induction 1 as [gap r0 Hg G|gap r0 t0 rest out0 Hg G Sig St IH]; intros S tg w t tb out Gt Gr Sg Sb.
  - destruct gap as [|x gap] using rev_ind.
    + apply (gap_function [] r0 []) in G; [|now apply Gap_comment_only]. subst r0. cbn [app]. destruct (stripped_solid _ _ _ Sg Sb) as (o & E & So). injection E as <-. exact (Str_next tg [w] t tb out Gt Gr Sg So).
    + exfalso. apply Forall_app in Hg as [_ Hg]. inversion Hg as [|? ? Hx _]; subst. apply Hx. destruct (S gap x eq_refl) as (N1 & N2 & N3). unfold Significant. repeat split; auto.
  - rewrite <- !app_assoc. cbn [app]. apply Str_next; auto. apply IH; auto. intros b u ->. apply (S (gap ++ t0 :: b) u). now rewrite <- app_assoc.
Qed.
Lemma last_skip {A} (a : list A) x b d : last (a ++ x :: b) d = last (x :: b) d.
Proof. induction a as [|y a IH]; [reflexivity|]. cbn [app]. destruct (a ++ x :: b) eqn:E; [destruct a; discriminate|]. exact IH. Qed.
Lemma stripped_last l out : Stripped l out -> EndsSolid l -> l <> [] -> forall d, out <> [] /\ last out d = last l d.
Proof.
  induction 1 as [gap r0 Hg G|gap r0 t0 rest out0 Hg G Sig St IH]; intros S N d.
  - exfalso. destruct gap as [|x gap] using rev_ind; [contradiction|]. apply Forall_app in Hg as [_ Hg]. inversion Hg as [|? ? Hx _]; subst. apply Hx. destruct (S gap x eq_refl) as (N1 & N2 & N3). unfold Significant. repeat split; auto.
  - split; [destruct r0; discriminate|]. rewrite !last_skip. destruct rest as [|y rest].
    + inversion St as [gp r Hg' G' E|gp r t1 rs o Hg' G' Sg' St' E]; subst; [|destruct gp; discriminate]. apply (gap_function [] out0 []) in G'; [|now apply Gap_comment_only]. now subst out0.
    + destruct (IH ltac:(intros b u E; apply (S (gap ++ t0 :: b) u); rewrite E; now rewrite <- app_assoc) ltac:(discriminate) d) as (No & E). destruct out0 as [|z out0]; [contradiction|]. exact E.
Qed.

Theorem join_parse decode regex_ok path text1 gap text2 lines ta tb eb n1 d1 n2 d2 :
  Lexes 0 QLeft text1 ta [] -> EndsSolid ta -> EndsPlain ta -> NoDots ta ->
  Lexes 0 QLeft text2 tb eb -> StartsSolid tb -> NoDots tb ->
  Filled lines true gap -> Not S_Lex.White text2 -> (lines = true -> Not QuoteChar text2) ->
  parse decode regex_ok path text1 = Ret (n1, d1) -> NoErrors d1 -> n1 <> [] ->
  parse decode regex_ok path text2 = Ret (n2, d2) -> NoErrors d2 -> n2 <> [] ->
  parse decode regex_ok path (text1 ++ gap ++ text2) = Ret (n1 ++ AParagraphBreak :: n2, d1 ++ d2).
Proof.
  intros L1 S1 Pl D1 L2 S2 D2 F Wh Q P1 N1 E1 P2 N2 E2.
  destruct (clean_root _ _ _ _ _ _ P1 N1) as (o1 & u1 & T1 & R1 & -> & Z1). destruct (clean_root _ _ _ _ _ _ P2 N2) as (o2 & u2 & T2 & R2 & -> & Z2).
  apply tokenize_stripped_iff in T1 as (U1 & x1 & L1' & St1). destruct (lexes_unique _ _ _ _ _ L1 L1') as [<- _]. apply tokenize_stripped_iff in T2 as (U2 & x2 & L2' & St2). destruct (lexes_unique _ _ _ _ _ L2 L2') as [<- ->]. clear L1' L2'.
  assert (B : Begins (gap ++ text2)).
  { destruct (filled_lexes lines true gap text2 0 QLeft F Wh Q tb [] 0 L2) as ((c & t & -> & Hc) & _). exists c, (t ++ text2). auto. }
  destruct (lexes_extend ta 0 QLeft text1 (gap ++ text2) L1 S1 B) as (pos & dir & X).
  destruct (filled_lexes lines true gap text2 pos dir F Wh Q tb [] 0 L2) as (_ & tg & tb' & eb' & G & Gp & _ & AW & HN & Sm & Eb). destruct eb'; [|discriminate]. specialize (X _ _ G).
  destruct (gap_exists tg Gp AW) as (w & Gw & _).
  assert (Kw : tk_kind w = Newline).
  { destruct HN as [_ HN]. destruct (HN eq_refl) as (y & Iy & Ky). inversion Gw as [|b t a C K Fa Eg Et|b t a K Fa Eg Et]; subst; [|exact K]. exfalso. apply in_app_iff in Iy as [Iy|[->|Iy]].
    - rewrite Forall_forall in C. rewrite (C _ Iy) in Ky. discriminate.
    - congruence.
    - rewrite Forall_forall in Fa. exact (Fa _ Iy Ky). }
  destruct (stripped_same _ _ St2 _ Sm) as (o2' & St2' & So).
  (* the second text begins with a significant token *)
  destruct tb as [|t2 tb]; [exfalso; inversion L2; subst; inversion St2 as [gp r Hg G' Eg|gp r t rs o Hg G' Sg' St' Eg]; subst; [|destruct gp; discriminate];
    apply (gap_function [] o2 []) in G'; [|now apply Gap_comment_only]; subst o2; apply E2; cbn in R2; now injection R2 as <- _|].
  inversion Sm as [|? t2' ? tb2' Ht Hs]; subst.
  assert (Sig : Significant t2) by (destruct (S2 t2 tb eq_refl) as (A1 & A2 & A3); unfold Significant; auto).
  assert (Sig' : Significant t2') by exact (same_significant _ _ Ht Sig).
  destruct (stripped_solid _ _ _ Sig St2) as (q2 & -> & _). destruct (stripped_solid _ _ _ Sig' St2') as (q2' & -> & _).
  (* the tokens of the whole *)
  assert (T : tokenize (text1 ++ gap ++ text2) true = Ret (o1 ++ w :: t2' :: q2', [])).
  { apply tokenize_stripped_iff. split; [exact (clean_uncut _ _ X)|]. exists (ta ++ tg ++ t2' :: tb2'). split; [exact X|]. now apply stripped_join. }
  (* what the second text is parsed to in its new place *)
  assert (H : P_Layout.S2 [] (PState (t2 :: q2) []) (PState (t2' :: q2') [])).
  { split; [reflexivity|]. split; [|constructor]. cbn [ps_tokens]. pose proof (lexes_tiles _ _ _ _ _ G) as TG. apply tiles_split in TG as (p' & s' & TG). pose proof (lexes_blank _ _ _ _ _ G) as BG. apply Forall_app in BG as [_ BG].
    eapply relaid_toks; [apply same_relaid; exact Sm|eapply lexes_tiles; exact L2|exact TG|eapply lexes_blank; exact L2|exact BG|exact St2|exact St2']. }
  pose proof (r_root path decode regex_ok [] _ _ H) as K. rewrite R2 in K. destruct (parse_root path decode regex_ok (PState (t2' :: q2') [])) as [n2' u2'|u2'| |] eqn:R2'; cbn in K; try contradiction.
  destruct K as [<- [Ed _]].
  assert (Z2' : said u2' = 0) by (unfold said in *; now rewrite Ed).
  (* the first text *)
  destruct o1 as [|t1 l1]; [exfalso; apply E1; cbn in R1; now injection R1 as <- _|].
  assert (Nta : ta <> []) by (intros ->; inversion St1 as [gp r Hg G' Eg|gp r t rs o Hg G' Sg' St' Eg]; subst; [|destruct gp; discriminate]; apply (gap_function [] (t1 :: l1) []) in G'; [discriminate|now apply Gap_comment_only]).
  destruct (stripped_last _ _ St1 S1 Nta w) as (_ & La).
  assert (Pa : pale (last (t1 :: l1) w) = false).
  { rewrite La. destruct (exists_last Nta) as (b & t & ->). rewrite last_last. destruct (S1 b t eq_refl) as (_ & K1 & K2). destruct (Pl b t eq_refl) as (K3 & K4). unfold pale. destruct (tk_kind t); auto; contradiction. }
  assert (ND1 : Forall (fun t => tk_kind t <> Ellipsis) (t1 :: l1)) by (apply Forall_forall; intros t I; apply D1, (stripped_subset _ _ St1), I).
  assert (ND2 : Forall (fun t => tk_kind t <> Ellipsis) (t2' :: q2')).
  { assert (ND : Forall (fun t => tk_kind t <> Ellipsis) (t2 :: q2)) by (apply Forall_forall; intros t I; apply D2, (stripped_subset _ _ St2), I). clear -ND So. induction So as [|a b l l' [K _] So IH]; [constructor|]. inversion ND; subst. constructor; [now rewrite <- K|auto]. }
  assert (W2 : tok_is_whitespace t2' = false) by (unfold Significant in Sig'; unfold tok_is_whitespace; destruct (tk_kind t2'); auto; intuition congruence).
  destruct (root_join path decode regex_ok t1 l1 w t2' q2' n1 u1 n2 u2' ND1 ND2 Kw W2 E2 R1 Z1 R2' Z2') as (ws & _ & Hw & R). rewrite (Hw Pa) in R. cbn [app] in R.
  unfold parse. rewrite T. cbn [obind fst snd map]. cbn [app]. rewrite R. cbn [ps_diags]. now rewrite Ed.
Qed.
