(** Property theorems C81: layout and comments. *)
From Verif Require Import Base M_Token M_Tokenizer M_Diag M_State M_Native M_Parser M_Eval M_Lib S_Front S_Layout S_Lex S_Example P_LexStrip P_Layout4.

(** C81. Two texts that are laid out alike are parsed alike, with the same complaints. (Provisos: comments and the like that are
    not ended are complained about, so the complaints about the tokens must agree; the texts are not among those on which the
    tokenizer crashes, C69.) *)
Theorem C81_parse : forall decode regex_ok path text text' toks toks' errs errs',
  Uncut text -> Uncut text' ->
  Lexes 0 QLeft text toks errs -> Lexes 0 QLeft text' toks' errs' -> map fst errs = map fst errs' -> Relaid toks toks' ->
  parse decode regex_ok path text = parse decode regex_ok path text'.
Proof. intros. eapply parse_relaid; eauto. Qed.
Print Assumptions C81_parse.

(** So they compile to the same document, with the same exports, the same reports and the same effects, from whatever state. *)
Theorem C81_compile : forall X fuel path text text' toks toks' errs errs' s,
  Uncut text -> Uncut text' ->
  Lexes 0 QLeft text toks errs -> Lexes 0 QLeft text' toks' errs' -> map fst errs = map fst errs' -> Relaid toks toks' ->
  compile X fuel path text s = compile X fuel path text' s.
Proof.
  intros X fuel path text text' toks toks' errs errs' s C C' L L' E R. unfold compile, compile_source, parse_source.
  rewrite (C81_parse _ _ path _ _ _ _ _ _ C C' L L' E R). reflexivity.
Qed.
Print Assumptions C81_compile.

Theorem C81_library : forall X fuel text text' toks toks' errs errs',
  Uncut text -> Uncut text' ->
  Lexes 0 QLeft text toks errs -> Lexes 0 QLeft text' toks' errs' -> map fst errs = map fst errs' -> Relaid toks toks' ->
  compile_str X fuel text = compile_str X fuel text'.
Proof.
  intros X fuel text text' toks toks' errs errs' C C' L L' E R. unfold compile_str.
  destruct (context_new _ _ _ _ _) as [? s|? s| |]; try reflexivity. now rewrite (C81_compile _ _ _ _ _ _ _ _ _ s C C' L L' E R).
Qed.
Print Assumptions C81_library.

Definition C81_sample1 : str := lit "@let(x = 1) <b>$x</b> end".
Definition C81_sample2 : str := lit "@let(x" ++ [10%N] ++ lit "=<!-- one --> 1) # and so" ++ [10%N] ++ lit "     <b>$x</b> <!-- the --> end".
Example C81_nonvacuous : Uncut C81_sample1 /\ Uncut C81_sample2 /\
  exists toks toks', tokenize C81_sample1 false = Ret (toks, []) /\ tokenize C81_sample2 false = Ret (toks', []) /\ Relaid toks toks' /\
  exists h e s, compile (ex_files_X []) 20 (lit "main") C81_sample2 ex_start = Ok (h, e) s /\ M_Render.render true h = lit "<p><b>1</b> end</p>".
Proof.
  split; [|split].
  1,2: apply (tokenize_uncut _ false); vm_compute; discriminate.
  - eexists. eexists. split; [vm_compute; reflexivity|]. split; [vm_compute; reflexivity|]. split.
    + apply relaid_check with (n := 100). vm_compute. reflexivity.
    + eexists. eexists. eexists. split; vm_compute; reflexivity.
Qed.
