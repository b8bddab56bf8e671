(** Property theorems C69: the lexical grammar. *)
From Verif Require Import Base M_Token M_Tokenizer S_Text S_Front S_Lex P_Lex P_Cut P_LexStrip.

(** C69. The tokens and complaints the tokenizer yields are those which the lexical grammar gives the text, and no others; it
    yields them unless some token of the text is a numeric escape cut short inside a character, where the code crashes (C15). *)
Theorem C69_tokens : forall src toks errs, tokenize src false = Ret (toks, errs) <-> Lexes 0 QLeft src toks errs /\ Uncut src.
Proof. exact tokenize_all_iff. Qed.
Print Assumptions C69_tokens.

(** So it is for the stream given to the parser: without comments, each gap reduced to one white space token. *)
Theorem C69_stripped : forall src toks errs,
  tokenize src true = Ret (toks, errs) <-> Uncut src /\ exists all, Lexes 0 QLeft src all errs /\ Stripped all toks.
Proof. exact tokenize_stripped_iff. Qed.
Print Assumptions C69_stripped.

(** The grammar is complete and unambiguous: every text has one reading. *)
Theorem C69_one_reading : forall src,
  (exists toks errs, Lexes 0 QLeft src toks errs) /\
  (forall toks errs toks' errs', Lexes 0 QLeft src toks errs -> Lexes 0 QLeft src toks' errs' -> toks = toks' /\ errs = errs').
Proof. intros src. split; [apply lexes_exist|]. intros. eapply lexes_unique; eauto. Qed.
Print Assumptions C69_one_reading.

(** C15: these are the only texts on which the tokenizer crashes, and it crashes on all of them. *)
Theorem C15_crashes : forall src strip, tokenize src strip = Panic <-> exists rest, Reads QLeft src rest /\ CutEscape rest.
Proof. exact tokenize_panic. Qed.
Print Assumptions C15_crashes.
(** A letter, then the escape: two digits are wanted, but the second byte is in the middle of the character after the first. *)
Example C15_crashes_nonvacuous : exists rest, Reads QLeft (lit "a\x1" ++ [233%N]) rest /\ CutEscape rest.
Proof. apply (C15_crashes _ false). vm_compute. reflexivity. Qed.
(** With more digits than characters there is no crash: the escape is complained about. *)
Example C15_crashes_not : Uncut (lit "a\u1" ++ [233%N]) /\ exists toks errs, tokenize (lit "a\u1" ++ [233%N]) false = Ret (toks, errs) /\ errs <> [].
Proof.
  split; [apply (tokenize_uncut _ false); vm_compute; discriminate|]. do 2 eexists. split; [vm_compute; reflexivity|discriminate].
Qed.

Definition C69_sample : str := lit "<p>'a'</p> @let(x=-1) <!-- c --> &lt;".
Example C69_nonvacuous : Uncut C69_sample /\
  exists toks, tokenize C69_sample false = Ret (toks, []) /\
  map tk_kind toks = [LAngle; Name; RAngle; Quote QSingle QLeft; Name; Quote QSingle QRight; CloseTag; Whitespace; Kw KLet; LPar;
    Name; Equals; Number; RPar; Whitespace; Comment; Whitespace; Entity].
Proof.
  split.
  - apply (tokenize_uncut _ false). vm_compute. discriminate.
  - eexists. split; vm_compute; reflexivity.
Qed.
