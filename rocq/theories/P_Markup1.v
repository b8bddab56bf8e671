(** Proofs about markup: its tokens. *)
From Verif Require Import Base BaseFacts M_Text M_Names M_TagInfo M_TextSubs M_Token M_Tokenizer M_TokenText M_Types M_Diag M_Ast.
From Verif Require Import S_Front P_Tokenizer P_Escape S_TextSubs S_Grammar S_Prose P_Prose P_ProseLex S_Markup.

Definition TokOk (t : token) : Prop := LexTok t /\ tk_kind t <> Comment /\ tk_text t <> lit "?".
(** ** Single tokens *)
(** What may follow a word *)
Definition NoIdent (rest : str) : Prop := forall c r, rest = c :: r -> is_ident_cont c = false.
Lemma take_all f w rest : Forall (fun c => f c = true) w -> (forall c r, rest = c :: r -> f c = false) -> take_while f (w ++ rest) = w.
Proof.
  intros F N. induction F as [|c w Hc F IH]; cbn [app take_while]; [|rewrite Hc; now f_equal].
  destruct rest as [|c r]; [reflexivity|]. cbn [take_while]. now rewrite (N c r eq_refl).
Qed.
Lemma ident_start_facts c : is_ident_start c = true -> (c =? c_of "#")%N = false /\ is_ascii_whitespace c = false /\ utf8_len c = 1.
Proof.
  intros H. split; [|split].
  - destruct (N.eqb_spec c (c_of "#")) as [->|]; [discriminate H|reflexivity].
  - destruct (is_ascii_whitespace c) eqn:E; [|reflexivity]. apply dull_ident_start in E. congruence.
  - apply utf8_len_ascii, ident_start_ascii, H.
Qed.
Lemma next_ident c w rest : is_ident_start c = true -> Forall (fun d => is_ident_cont d = true) w -> NoIdent rest ->
  next_token ((c :: w) ++ rest) = Ret (blen (c :: w), ident_kind (c :: w), None).
Proof.
  intros Hc F N. destruct (ident_start_facts c Hc) as (E1 & E2 & E3). unfold next_token. cbn [app]. cbv zeta. rewrite E1, E2, Hc.
  unfold scan_while. rewrite (take_all _ _ _ F N). cbn [blen]. rewrite E3.
  assert (prefix_str (c :: w ++ rest) (1 + blen w) = c :: w) as ->; [|reflexivity].
  rewrite <- E3. exact (prefix_app (c :: w) rest).
Qed.
Lemma next_escape c e rest : Spelled c e -> next_token (e ++ rest) = Ret (blen e, Escape, None) /\ LexTok (Token Escape e 0 0) /\ EscapeMeans e c.
Proof.
  destruct 1 as [c N1 N2| | |c k n digits D L V B S].
  - assert (ND : forall n, ~ EscapeDigits c n) by (intros n D; apply N1; destruct D; cbn; tauto).
    destruct (next_token_good c rest N2 (fun n D => match ND n D with end)) as (digits & after & E & T & [(n & D & _)|[_ ->]]); [now apply ND in D|].
    split; [exact T|]. split; [now apply lex_escape|]. apply em_other; [exact ND| |]; intros ->; apply N1; cbn; tauto.
  - split; [reflexivity|]. split; [apply lex_escape; intros n D; inversion D|apply em_newline].
  - split; [reflexivity|]. split; [apply lex_escape; intros n D; inversion D|apply em_tab].
  - assert (HexDigits digits) as Hx.
    { exact (hex_value_digits _ _ V). }
    assert (K : k <> 10%N) by (destruct D; discriminate).
    assert (Pre : forall m, EscapeDigits k m -> m <= length (digits ++ rest) /\ forallb is_ascii_hexdigit (firstn m (digits ++ rest)) = true).
    { intros m D'. assert (m = n) as -> by (destruct D; inversion D'; reflexivity). subst n. rewrite app_length. split; [lia|].
      rewrite firstn_app, firstn_all, Nat.sub_diag. cbn [firstn]. now rewrite app_nil_r. }
    destruct (next_token_good k (digits ++ rest) K Pre) as (digits' & after & E & T & H).
    assert (digits' = digits) as ->.
    { destruct H as [(m & D' & Lm & _)|[ND _]]; [|now apply ND in D]. assert (m = n) as -> by (destruct D; inversion D'; reflexivity).
      apply (f_equal (firstn n)) in E. rewrite !firstn_app in E. rewrite L, Lm, Nat.sub_diag in E. cbn [firstn] in E. rewrite !app_nil_r in E.
      rewrite firstn_all2 in E by lia. rewrite firstn_all2 in E by lia. now symmetry. }
    split; [exact T|]. split; [now apply (lex_numeric k n)|now apply (em_numeric 92%N k n)].
Qed.
(** ** Reading *)
Definition Reading (s : str) (B : str -> Prop) (G : list token -> Prop) : Prop :=
  forall d rest P, B rest -> (forall d', Lexes rest d' P) ->
    Lexes (s ++ rest) d (fun l => exists toks l', l = toks ++ l' /\ Forall TokOk toks /\ G toks /\ P l').
Lemma reading_nil (B : str -> Prop) (G : list token -> Prop) : G [] -> Reading [] B G.
Proof. intros H d rest P _ L fuel cur F. destruct (L d fuel cur F) as (l & E & Pl). exists l. split; [exact E|]. exists [], l. auto. Qed.
Lemma reading_app s1 s2 (B1 B2 : str -> Prop) (G1 G2 G : list token -> Prop) : Reading s1 B1 G1 -> Reading s2 B2 G2 -> (forall rest, B2 rest -> B1 (s2 ++ rest)) ->
  (forall a b, G1 a -> G2 b -> G (a ++ b)) -> Reading (s1 ++ s2) B2 G.
Proof.
  intros R1 R2 HB HG d rest P Br L. rewrite <- app_assoc.
  pose proof (R1 d (s2 ++ rest) _ (HB rest Br) (fun d' => R2 d' rest P Br L)) as H.
  intros fuel cur F. destruct (H fuel cur F) as (l & E & (a & l' & -> & Oa & Ga & (b & l'' & -> & Ob & Gb & Pl))).
  exists (a ++ b ++ l''). split; [exact E|]. exists (a ++ b), l''. rewrite <- app_assoc. split; [reflexivity|]. split; [now apply Forall_app|]. auto.
Qed.
Lemma reading_weaken s (B B' : str -> Prop) (G G' : list token -> Prop) : Reading s B G -> (forall rest, B' rest -> B rest) -> (forall l, G l -> G' l) -> Reading s B' G'.
Proof.
  intros R HB HG d rest P Br L fuel cur F. destruct (R d rest P (HB _ Br) L fuel cur F) as (l & E & (a & l' & -> & O & Ga & Pl)).
  exists (a ++ l'). split; [exact E|]. exists a, l'. auto.
Qed.
Lemma reading_token text (B : str -> Prop) k : text <> [] -> (forall rest, B rest -> next_token (text ++ rest) = Ret (blen text, k, None)) ->
  (forall d, TokOk (Token (set_quote_dir k d) text 0 0)) ->
  Reading text B (fun l => exists t d, l = [t] /\ tk_kind t = set_quote_dir k d /\ tk_text t = text).
Proof.
  intros N T O d rest P Br L. eapply lexes_token; [exact N|now apply T|apply L|]. intros t l K E Pl. exists [t], l. split; [reflexivity|].
  assert (TokOk t) as Ot. { specialize (O d). unfold TokOk, LexTok in *. cbn [tk_kind tk_text] in O. now rewrite K, E. }
  split; [now constructor|]. split; [exists t, d; auto|exact Pl].
Qed.
