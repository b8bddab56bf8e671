(** Parsers without recursion into expressions: names, numbers, types, text and template literals. *)
From Verif Require Import Base BaseFacts M_Text M_Names M_Token M_Tokenizer M_TokenText M_TextSubs M_Types M_Diag M_Queue M_Ast M_Parser.
From Verif Require Import S_Front S_TextSubs S_Grammar P_Tokenizer P_Escape P_TextSubs P_ParserW.

(** ** Tokens *)
Lemma name_id_ok t n : NameOf t n -> tok_name_id t = pret n.
Proof.
  intros H. unfold tok_name_id. destruct H as [t K|t c n K E|t c n K E]; unfold Is in K; rewrite K; auto; rewrite E; auto.
Qed.
Lemma name_of_name t : Is Name t -> NameOf t (tk_text t).
Proof. apply no_name. Qed.
Lemma lex_var_name t : LexTok t -> Is VarName t -> exists n, NameOf t n.
Proof.
  unfold LexTok, Is. intros L K. rewrite K in L. remember (tk_text t) as s eqn:E. inversion L; subst.
  - exists n. apply (no_var t 36%N n); auto.
  - cbn in *. intuition congruence.
Qed.
Lemma lex_func_name t : LexTok t -> Is FuncName t -> exists n, NameOf t n.
Proof.
  unfold LexTok, Is. intros L K. rewrite K in L. remember (tk_text t) as s eqn:E. inversion L; subst.
  - exists n. apply (no_func t 64%N n); auto.
  - cbn in *. intuition congruence.
Qed.
Lemma radix_dec_inv s : forall n, radix_loop 10 s 0 = Some n -> DecValue s n.
Proof.
  induction s as [|c s IH] using rev_ind; intros n H.
  - injection H as <-. constructor.
  - rewrite radix_app in H. destruct (radix_loop 10 s 0) as [m|] eqn:E; [|discriminate]. cbn in H.
    destruct (hex_digit c) as [d|] eqn:D; [|discriminate]. destruct (d <? 10)%N eqn:L; [|discriminate]. injection H as <-.
    apply N.ltb_lt in L. apply hex_digit_spec in D.
    assert (c = 48 + d)%N as -> by (inversion D; subst; lia).
    apply DV_snoc; auto.
Qed.
Lemma parse_i64_iff s z : parse_i64 s = Some z <-> IntLiteral s z.
Proof.
  unfold IntLiteral. split.
  - intros H. unfold parse_i64 in H.
    assert (exists neg ds, (neg = true /\ s = 45%N :: ds \/ neg = false /\ (s = 43%N :: ds \/ s = ds)) /\
      match ds with [] => None | _ => match radix_loop 10 ds 0 with Some n => let z := if neg then (- Z.of_N n)%Z else Z.of_N n in if in_i64 z then Some z else None | None => None end end = Some z) as (neg & ds & C & H').
    { destruct s as [|c t].
      - exists false, []. auto.
      - destruct (c =? 45)%N eqn:E1; [|destruct (c =? 43)%N eqn:E2].
        + apply N.eqb_eq in E1 as ->. exists true, t. auto.
        + apply N.eqb_eq in E2 as ->. exists false, t. auto.
        + exists false, (c :: t). auto. }
    clear H. destruct ds as [|c ds']; [discriminate|]. set (ds := c :: ds') in *.
    destruct (radix_loop 10 ds 0) as [n|] eqn:R; [|discriminate]. apply radix_dec_inv in R. cbn zeta in H'.
    destruct (in_i64 (if neg then (- Z.of_N n)%Z else Z.of_N n)) eqn:I; [|discriminate]. injection H' as <-.
    apply in_i64_spec in I. split; auto. exists ds, n. split; [discriminate|]. split; auto.
    destruct C as [[-> ->]|[-> [-> | ->]]]; auto.
  - intros [I (ds & n & N & D & C)]. apply in_i64_spec in I. unfold parse_i64.
    assert (forall c t, ds = c :: t -> (48 <= c <= 57)%N) as Hd.
    { assert (Forall (fun c => (48 <= c <= 57)%N) ds) as F.
      { clear - D. induction D; auto. apply Forall_app; split; auto. constructor; auto. lia. }
      intros c t ->. inversion F; auto. }
    apply radix_dec in D.
    destruct C as [[-> ->]|[[-> ->]|[-> ->]]].
    + destruct ds as [|c t]; [congruence|]. specialize (Hd _ _ eq_refl).
      destruct (c =? 45)%N eqn:E1; [apply N.eqb_eq in E1; lia|]. destruct (c =? 43)%N eqn:E2; [apply N.eqb_eq in E2; lia|].
      rewrite D, I. auto.
    + cbn [N.eqb Pos.eqb]. destruct ds as [|c t]; [congruence|]. rewrite D, I. auto.
    + cbn [N.eqb Pos.eqb]. destruct ds as [|c t]; [congruence|]. rewrite D, I. auto.
Qed.
Lemma W_number {B} c t (f : Z -> PM B) toks Q :
  (forall i, IntLiteral (tk_text t) i -> W c (f i) toks Q) -> W c (pbind (p_number t) f) toks Q.
Proof.
  intros H. unfold p_number, parse_number. destruct (parse_i64 (tk_text t)) as [i|] eqn:E.
  - apply W_bind_ret. apply H. apply parse_i64_iff; auto.
  - apply W_bind_fail.
Qed.
Lemma unescape_iff s : Lexeme Escape s ->
  exists c e, unescape_char s = Ret (c, e) /\ (e = None -> EscapeMeans s c) /\ forall c', EscapeMeans s c' -> e = None /\ c = c'.
Proof.
  intros H. remember Escape as k eqn:K. destruct H; try discriminate K.
  - unfold HexDigits in H1. destruct (hex_value_exists _ H1) as [code V].
    pose proof (unescape_numeric _ _ _ _ H H0 V) as U. change (lit "\" ++ c :: digits) with (92%N :: c :: digits).
    rewrite U. clear U.
    assert (forall c', EscapeMeans (92%N :: c :: digits) c' -> c' = code /\ (code < 1114112)%N /\ ~ Surrogate code) as Inv.
    { intros c' M. inversion M; subst.
      - assert (c' = code) as ->. { apply radix_hex in V. match goal with X : HexValue _ c' |- _ => apply radix_hex in X end. congruence. } auto.
      - inversion H.
      - inversion H.
      - exfalso. match goal with X : forall n, ~ _ |- _ => apply (X _ H) end. }
    destruct ((code <? 55296)%N || ((57343 <? code) && (code <? 1114112))%N) eqn:E; eexists _, _.
    + split; [reflexivity|]. split.
      * intros _. apply em_numeric with (n := n); auto; unfold Surrogate; lia.
      * intros c' M. apply Inv in M. intuition congruence.
    + split; [reflexivity|]. split; [discriminate|]. intros c' M. apply Inv in M. unfold Surrogate in M. exfalso. lia.
  - change (lit "\" ++ [c]) with [92%N; c]. rewrite unescape_other by auto. eexists _, _. split; [reflexivity|].
    destruct (N.eqb_spec c 110) as [->|]; [|destruct (N.eqb_spec c 116) as [->|]].
    + split; [intros _; apply em_newline|]. intros c' M. inversion M; subst; auto; congruence || (exfalso; eapply H; eauto).
    + split; [intros _; apply em_tab|]. intros c' M. inversion M; subst; auto; congruence || (exfalso; eapply H; eauto).
    + split; [intros _; apply em_other; auto|]. intros c' M. inversion M; subst; auto; congruence || (exfalso; eapply H; eauto).
  - subst k. exfalso. apply H. cbn. auto 10.
Qed.
Lemma W_unescape {B} c t (f : char -> PM B) toks Q : LexTok t -> Is Escape t ->
  (forall x c', (c' = true -> c = true /\ EscapeMeans (tk_text t) x) -> W c' (f x) toks Q) -> W c (pbind (p_unescape t) f) toks Q.
Proof.
  unfold LexTok, Is. intros L K H. rewrite K in L. destruct (unescape_iff _ L) as (x & e & U & S & _).
  unfold p_unescape. rewrite U. destruct e as [e|].
  - apply W_bind_bind, W_err, W_bind_ret, H. discriminate.
  - apply W_bind_ret, H. auto.
Qed.
Lemma R_unescape t c : LexTok t -> Is Escape t -> EscapeMeans (tk_text t) c -> p_unescape t = pret c.
Proof.
  unfold LexTok, Is. intros L K H. rewrite K in L. destruct (unescape_iff _ L) as (x & e & U & _ & S).
  destruct (S _ H) as [-> ->]. unfold p_unescape. rewrite U. auto.
Qed.
Lemma W_entity {B} decode c t (f : char -> PM B) toks Q :
  (forall x c', (c' = true -> c = true /\ decode (tk_text t) = [x]) -> W c' (f x) toks Q) ->
  W c (let (x, e) := decode_entity decode (tk_text t) in match e with Some e => serr e | None => pret tt end;; f x) toks Q.
Proof.
  intros H. unfold decode_entity. destruct (decode (tk_text t)) as [|x [|y l]].
  - apply W_err, H. discriminate.
  - apply W_bind_ret, H. auto.
  - apply W_err, H. discriminate.
Qed.

(** ** Names *)
Lemma access_spec t : is_access t = true <-> Access t.
Proof. unfold is_access, Access. rewrite orb_true_iff, !is_kind_spec. tauto. Qed.
Lemma access_cases t : Access t -> Coalescing t (is_kind QuestionMarkDoubleColon t).
Proof.
  unfold Access, Coalescing. destruct (is_kind QuestionMarkDoubleColon t) eqn:E.
  - apply is_kind_spec in E. auto.
  - intros [A|A]; auto. apply is_kind_spec in A. congruence.
Qed.
Lemma coalescing_kind t c : Coalescing t c -> is_kind QuestionMarkDoubleColon t = c /\ Access t.
Proof.
  unfold Coalescing, Access. destruct c; intros H; split; auto.
  - apply is_kind_spec; auto.
  - unfold Is in H. unfold is_kind. rewrite H. reflexivity.
Qed.
Lemma name_loop_spec fuel : forall n, Spec fuel (name_loop fuel n) 0 (fun toks rest m => Path n toks rest m).
Proof.
  induction fuel as [|fuel IH]; intros n c toks L; [lia|]. cbn [name_loop]. apply W_poll_if.
  - intros t l -> A _. apply access_spec, access_cases in A. w1.
    + apply W_number. intros i I. wuse IH. intros r c' m L' _ H. split; [cbn in *; lia|]. intros E. clean. split; auto.
      eapply path_index; eauto.
    + w1. erewrite name_id_ok by (apply name_of_name; auto). w1. wuse IH. intros r c' m L' _ H. split; [cbn in *; lia|].
      intros E. clean. split; auto. eapply path_attr; eauto using name_of_name.
  - intros N. rewrite not_next in N by (intros; apply access_spec). w1. split; [lia|]. intros E. split; auto. apply path_end; auto.
Qed.
Lemma parse_name_spec N t n : NameOf t n -> Spec N (parse_name t) 0 (Named t).
Proof.
  intros K c toks L. unfold parse_name. rewrite (name_id_ok _ _ K). w1. w1. wuse name_loop_spec.
  intros r c' m L' _ H. split; [lia|]. intros E. clean. split; auto. exists n. auto.
Qed.
Lemma name_of_fun t a b : NameOf t a -> NameOf t b -> a = b.
Proof.
  intros H H'. apply name_id_ok in H. apply name_id_ok in H'. assert (E : @pret str a (PState [] []) = pret b (PState [] [])) by congruence.
  injection E; auto.
Qed.
Lemma name_loop_runs n toks rest m : Path n toks rest m -> forall fuel, length toks < fuel -> Runs (name_loop fuel n) toks m rest.
Proof.
  induction 1; intros fuel L; (destruct fuel as [|fuel]; [lia|]); cbn [name_loop].
  - apply R_poll_no; [|apply R_ret]. rewrite not_next by (intros; apply access_spec). auto.
  - apply coalescing_kind in H as [C A]. apply R_poll_yes; [apply access_spec; auto|]. apply R_kind_no.
    + intros (y & l & [= <- <-] & K). unfold Is in *. congruence.
    + apply R_expect_kind; auto. rewrite (name_id_ok _ _ H1). apply R_bind_ret. rewrite C. apply IHPath. cbn in *; lia.
  - apply coalescing_kind in H as [C A]. apply R_poll_yes; [apply access_spec; auto|]. apply R_kind_yes; auto.
    apply parse_i64_iff in H1. unfold p_number, parse_number. rewrite H1. apply R_bind_ret. rewrite C. apply IHPath. cbn in *; lia.
Qed.
Lemma parse_name_runs t toks rest m : Named t toks rest m -> Runs (parse_name t) toks m rest.
Proof.
  intros (n & K & P). unfold parse_name. rewrite (name_id_ok _ _ K). apply R_bind_ret. apply R_fuel.
  apply name_loop_runs; auto.
Qed.

(** ** Types *)
Lemma base_type_spec s t : base_type s = Some t <-> In (s, t) base_types.
Proof.
  unfold base_type, base_types. split.
  - repeat match goal with |- (if str_eqb s ?x then _ else _) = _ -> _ =>
      let E := fresh in destruct (str_eqb s x) eqn:E; [apply str_eqb_eq in E; subst s; intros [= <-]; cbn; auto 20|clear E]
    end. intros; discriminate.
  - cbn. intros H. repeat (destruct H as [H|H]; [apply pair_equal_spec in H as [<- <-]; reflexivity|]). destruct H.
Qed.
Lemma group_tok_spec t : is_group_tok t = true <-> Is Name t \/ Is QuestionMark t.
Proof. unfold is_group_tok. rewrite orb_true_iff, !kind_eqb_spec. tauto. Qed.
Lemma lex_question_text t : LexTok t -> (Is Name t \/ Is QuestionMark t) -> (tk_text t = lit "?" <-> Is QuestionMark t).
Proof.
  unfold LexTok, Is. intros L K. destruct (tk_kind t) eqn:E; try (destruct K; discriminate).
  - remember (tk_text t) as s. inversion L; subst.
    + split; [|discriminate]. intros X. injection X as -> _.
      unfold Letter in *. lia.
    + cbn in *. intuition congruence.
  - remember (tk_text t) as s. inversion L; subst; [tauto|]. cbn in *. intuition congruence.
Qed.
Lemma groups_spec fuel : forall t, Spec fuel (parse_groups fuel t) 0 (fun toks rest u => TypeSuffix t toks rest u).
Proof.
  induction fuel as [|fuel IH]; intros t c toks L; [lia|]. cbn [parse_groups]. w1. apply W_poll_if.
  - intros a l -> G X. apply group_tok_spec in G. pose proof (lex_question_text _ X G) as Q. unfold group_type.
    destruct (str_eqb (tk_text a) (lit "list")) eqn:E1; [|destruct (str_eqb (tk_text a) (lit "dict")) eqn:E2;
      [|destruct (str_eqb (tk_text a) (lit "?")) eqn:E3]].
    + apply str_eqb_eq in E1. w1. wuse IH. intros r c' m L' _ H. split; [cbn in *; lia|]. intros E. clean. split; auto.
      eapply ts_list; eauto. destruct G as [G|G]; auto. apply Q in G. rewrite G in E1. discriminate.
    + apply str_eqb_eq in E2. w1. wuse IH. intros r c' m L' _ H. split; [cbn in *; lia|]. intros E. clean. split; auto.
      eapply ts_dict; eauto. destruct G as [G|G]; auto. apply Q in G. rewrite G in E2. discriminate.
    + apply str_eqb_eq, Q in E3. destruct (unit_is_assignable t) eqn:U.
      * w1. w1. w1. wuse IH. intros r c' m L' _ H. split; [cbn in *; lia|]. intros E. clean. split; auto.
        eapply ts_optional; eauto. rewrite U. auto.
      * w1. wuse IH. intros r c' m L' _ H. split; [cbn in *; lia|]. intros E. clean. split; auto.
        eapply ts_optional; eauto. rewrite U. auto.
    + w1. w1. w1. wuse IH. intros r c' m L' _ H. split; [cbn in *; lia|]. intros E. clean.
  - intros N. rewrite not_next in N by (intros; apply group_tok_spec). w1. split; [cbn in *; lia|]. intros E. split; auto.
    apply ts_end; auto.
Qed.
Lemma parse_type_spec N : Spec N parse_type 1 Type_.
Proof.
  intros c toks L. unfold parse_type. w1. w1. destruct (base_type (tk_text t)) as [u|] eqn:B.
  - w1. apply (W_fuel c (fun fuel => parse_groups fuel u)). wuse groups_spec. intros r c' m L' _ H. split; [cbn in *; lia|].
    intros E. clean. split; auto. econstructor; eauto. apply base_type_spec. auto.
  - w1. w1. w1. apply (W_fuel false (fun fuel => parse_groups fuel TAny)). wuse groups_spec. intros r c' m L' _ H.
    split; [cbn in *; lia|]. intros E. clean.
Qed.
Lemma groups_runs t toks rest u : TypeSuffix t toks rest u -> Forall LexTok toks ->
  forall fuel, length toks < fuel -> Runs (parse_groups fuel t) toks u rest.
Proof.
  induction 1; intros X fuel L; (destruct fuel as [|fuel]; [lia|]); cbn [parse_groups]; eapply R_skip; eauto.
  - apply R_poll_no; [|apply R_ret]. rewrite not_next by (intros; apply group_tok_spec). auto.
  - pose proof (skip_length _ _ H). apply (skip_lex _ _ H) in X. apply R_poll_yes; [apply group_tok_spec; auto|].
    unfold group_type. rewrite H1. cbn [str_eqb]. apply R_bind_ret. inversion X; subst. apply IHTypeSuffix; auto. cbn in *; lia.
  - pose proof (skip_length _ _ H). apply (skip_lex _ _ H) in X. apply R_poll_yes; [apply group_tok_spec; auto|].
    unfold group_type. rewrite H1. apply R_bind_ret. inversion X; subst. apply IHTypeSuffix; auto. cbn in *; lia.
  - pose proof (skip_length _ _ H). apply (skip_lex _ _ H) in X. apply R_poll_yes; [apply group_tok_spec; auto|].
    inversion X; subst. assert (tk_text a = lit "?") as E by (apply lex_question_text; auto).
    unfold group_type. rewrite E. change (str_eqb (lit "?") (lit "list")) with false. change (str_eqb (lit "?") (lit "dict")) with false.
    change (str_eqb (lit "?") (lit "?")) with true. cbn match. destruct (unit_is_assignable t).
    + apply R_bind_bind, R_warn, R_bind_ret. apply IHTypeSuffix; auto. cbn in *; lia.
    + apply R_bind_ret. apply IHTypeSuffix; auto. cbn in *; lia.
Qed.
Lemma parse_type_runs toks rest u : Type_ toks rest u -> Forall LexTok toks -> Runs parse_type toks u rest.
Proof.
  intros [toks' a l r t u' S K B G] X. unfold parse_type. eapply R_skip; eauto. apply R_expect_kind; auto.
  apply base_type_spec in B. rewrite B. apply R_bind_ret. apply (R_fuel (fun fuel => parse_groups fuel t)).
  apply groups_runs; auto. apply (skip_lex _ _ S) in X. inversion X; auto.
Qed.

(** ** Text *)
Lemma token_text_spec t s : token_text t = Some s <-> TextOf t s.
Proof.
  unfold token_text. split.
  - intros H. destruct (tk_kind t) eqn:K; try discriminate;
      repeat match goal with x : quote_kind |- _ => destruct x | x : quote_dir |- _ => destruct x | x : bool |- _ => destruct x end; injection H as <-;
      first [apply to_plain; rewrite K; cbn; tauto | apply to_bar; exact K | apply to_ellipsis; exact K
            |apply to_single_left; exact K|apply to_single_right; exact K|apply to_double_left; exact K|apply to_double_right; exact K].
  - intros H. destruct H as [t H|t H|t H|t H|t H|t H|t H]; try (unfold Is in H; rewrite H; reflexivity).
    cbn in H. repeat (destruct H as [H|H]; [rewrite <- H; reflexivity|]). destruct H.
Qed.
Lemma textual_spec t : is_some (token_text t) = true <-> Textual t.
Proof.
  unfold Textual. split.
  - destruct (token_text t) as [s|] eqn:E; [|discriminate]. intros _. exists s. apply token_text_spec; auto.
  - intros [s H]. apply token_text_spec in H. rewrite H. auto.
Qed.
Lemma has_text_spec t : has_text t = true <-> Textual t /\ ~ Is LAngle t.
Proof.
  unfold has_text. rewrite andb_true_iff, textual_spec, negb_true_iff. rewrite <- (is_kind_spec LAngle t).
  destruct (is_kind LAngle t); intuition congruence.
Qed.
Lemma text_loop_spec fuel : forall text,
  Spec fuel (text_loop fuel text) 0 (fun toks rest s => exists u, s = text ++ u /\ TextRun toks rest u).
Proof.
  induction fuel as [|fuel IH]; intros text c toks L; [lia|]. cbn [text_loop]. apply W_poll_if.
  - intros t l -> H X. apply has_text_spec in H as [[s H] K]. pose proof (proj2 (token_text_spec _ _) H) as E. rewrite E.
    wuse IH. intros r c' a L' _ G. split; [cbn in *; lia|]. intros C. clean. split; auto. destruct H1 as (u & -> & T).
    exists (s ++ u). rewrite app_assoc. split; auto. apply tr_more; auto.
  - intros N. rewrite not_next in N by (intros; apply has_text_spec). w1. split; [lia|]. intros C. split; auto.
    exists []. rewrite app_nil_r. split; auto. apply tr_end; auto.
Qed.
Lemma parse_text_spec N t s : TextOf t s ->
  Spec N (parse_text t) 0 (fun toks rest n => exists u out, TextRun toks rest u /\ Substituted (s ++ u) out /\ n = AText out).
Proof.
  intros H c toks L. unfold parse_text. apply token_text_spec in H. rewrite H. eapply W_use.
  - apply W_fuel. apply text_loop_spec. lia.
  - intros r c' a _ _ [L' G]. w1. split; auto. intros C. clean. split; auto. destruct H1 as (u & -> & T).
    exists u, (substitutions (s ++ u)). repeat split; auto. apply substitutions_spec. auto.
Qed.
Lemma text_loop_runs toks rest u : TextRun toks rest u -> forall fuel text, length toks < fuel ->
  Runs (text_loop fuel text) toks (text ++ u) rest.
Proof.
  induction 1; intros fuel text L; (destruct fuel as [|fuel]; [lia|]); cbn [text_loop].
  - rewrite app_nil_r. apply R_poll_no; [|apply R_ret]. rewrite not_next by (intros; apply has_text_spec). auto.
  - apply R_poll_yes.
    + apply has_text_spec. split; auto. exists s; auto.
    + apply token_text_spec in H. rewrite H, app_assoc. apply IHTextRun. cbn in L; lia.
Qed.
Lemma parse_text_runs t s toks rest u out : TextOf t s -> TextRun toks rest u -> Substituted (s ++ u) out ->
  Runs (parse_text t) toks (AText out) rest.
Proof.
  intros H T U. unfold parse_text. apply token_text_spec in H. rewrite H. eapply R_bind.
  - apply R_fuel. apply text_loop_runs; eauto.
  - apply substitutions_spec in U. rewrite U. apply R_ret.
Qed.
