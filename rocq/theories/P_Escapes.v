(** Escapes that are tokens of a text (C15, C43). *)
From Verif Require Import Base BaseFacts M_Token M_Tokenizer M_TokenText S_Text S_Front S_Lex S_Escapes P_Tokenizer P_Front P_Escape P_Lex1 P_Lex2 P_Lex3 P_Lex P_Cut P_LexStrip.

Lemma escapes_read text : EscapesRead text <-> exists toks errs, tokenize text true = Ret (toks, errs) /\ forall place, ~ In (TokenInvalidEscape, place) errs.
Proof.
  split.
  - intros [U N]. destruct (tokenize text true) as [[toks errs]| |] eqn:T.
    + exists toks, errs. split; [reflexivity|]. apply tokenize_stripped_iff in T as (_ & all & L & _). exact (N _ _ L).
    + exfalso. now apply (proj1 (tokenize_uncut text true) U).
    + exfalso. now apply tokenize_terminates in T.
  - intros (toks & errs & T & N). apply tokenize_stripped_iff in T as (U & all & L & _). split; [exact U|]. intros all' errs' L'.
    destruct (lexes_unique _ _ _ _ _ L L') as [<- <-]. exact N.
Qed.
Lemma complained_dec (errs : list (syntax_error * (nat * nat))) : (exists p, In (TokenInvalidEscape, p) errs) \/ forall p, ~ In (TokenInvalidEscape, p) errs.
Proof.
  induction errs as [|[e q] errs [(p & I)|N]]; [right; intros ? []|left; exists p; now right|].
  destruct e; try (left; exists q; now left); right; intros p [Z|I]; try discriminate; exact (N p I).
Qed.
Lemma escape_begins dir text rest k e : Lexeme dir text rest k e -> k = Escape -> exists t, text = 92%N :: t.
Proof.
  destruct 1; intro K; try discriminate K; eauto; exfalso.
  all: try (match type of K with context[if ?b then _ else _] => destruct b; discriminate K end).
  all: try (subst k; match goal with H : NameKind _ _ |- _ => inversion H | H : AtKind _ _ |- _ => inversion H end; fail).
  all: try (cbn in H; repeat (destruct H as [H|H]; [injection H as <- <- <-; discriminate K|]); contradiction).
Qed.
Lemma decodes_iff src strip toks errs tok : tokenize src strip = Ret (toks, errs) -> In tok toks -> tk_kind tok = Escape ->
  ((exists r, unescape_char (tk_text tok) = Ret r) <-> ~ In (TokenInvalidEscape, (tk_start tok, tk_end tok)) errs).
Proof.
  intros T I K. destruct (token_at _ _ _ _ _ T I) as (before & after & len & k & err & d & Es & _ & _ & Hn & Hl & Ek & He & Hb).
  assert (k = Escape) as -> by (rewrite K in Ek; destruct k; try discriminate Ek; auto; destruct q; discriminate Ek).
  destruct (next_token_sound QLeft _ _ _ _ Hn) as (text & rest & Et & B & X). apply app_inj_blen in Et as [<- <-]; [|congruence]. cbn in X.
  destruct (escape_begins _ _ _ _ _ X eq_refl) as (t & Ht).
  destruct (escape_lexeme _ _ _ _ _ (t ++ after) X ltac:(now rewrite Ht)) as [(_ & -> & G)|[(_ & -> & _ & F)|(Z & _)]]; [| |discriminate].
  - split; intros _; [intro J; apply Hb in J as [Z _]; discriminate|].
    destruct (good_next (tk_text tok ++ after)) as (len' & k' & e' & Hn' & Hu); [rewrite Ht; discriminate|rewrite Ht; intros u Eu; injection Eu as <-; exact G|].
    rewrite Hn in Hn'. injection Hn' as <- <- <-. destruct (Hu eq_refl) as (text & rest & Et & B2 & R). apply app_inj_blen in Et as [<- <-]; [exact R|congruence].
  - split; [|intro N; destruct N; now apply He]. intros (r & E) _. destruct F as [F|(c & n & J & F)]; rewrite F in E; [discriminate|].
    cbn in J. destruct J as [[= <- _]|[[= <- _]|[[= <- _]|[]]]]; discriminate E.
Qed.
