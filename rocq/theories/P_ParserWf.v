(** Every syntax tree the parser makes is well-formed, also where there are syntax errors. *)
From Verif Require Import Base BaseFacts M_Text M_Names M_TagInfo M_Token M_Tokenizer M_TokenText M_TextSubs M_Types M_Diag M_Queue M_Ast M_Parser
  S_Call S_Safe S_Text S_Front S_Grammar S_Lex P_Text P_Tokenizer P_Front P_ParserLex P_Util P_Lex2 P_SafeWeaken P_SafeBase.

(** ** Variable tokens *)
Definition VarTok (t : token) : Prop :=
  (tk_kind t = VarName -> List.tl (tk_text t) <> n_anonymous) /\ (tk_kind t = Name -> is_identifier (tk_text t) = true).
Lemma next_token_var s len e : next_token s = Ret (len, VarName, e) -> exists c d t, s = c :: d :: t /\ utf8_len c = 1 /\ is_ident_start d = true /\ 2 <= len.
Proof.
  unfold next_token. destruct s as [|c t]; [discriminate|]. cbv zeta.
  assert (forall k x, @Ret (nat * token_kind * option syntax_error) (k, ident_kind x, None) = Ret (len, VarName, e) -> False) as Hi.
  { intros k x. unfold ident_kind. repeat (arm; [intros [=]|]). intros [=]. }
  arm; [intros [=]|]. arm; [arm; intros [=]|]. arm; [intro H; now apply Hi in H|]. arm; [intros [=]|].
  arm.
  { intros [= <- H _]. apply andb_true_iff in E3. destruct E3 as [Ec En]. apply next_is_inv in En as (d & t' & -> & Ed).
    destruct (c =? c_of "$")%N eqn:Ed1.
    - apply N.eqb_eq in Ed1. subst c. exists (c_of "$"), d, t'. repeat split; auto.
      assert (is_ident_cont d = true) as Ed'.
      { unfold is_ident_start, is_ident_cont, is_ascii_alphanumeric in *. destruct (is_ascii_alphabetic d); auto. cbn in Ed. rewrite Ed. apply orb_true_r. }
      unfold scan_while. cbn [take_while]. rewrite Ed'. cbn [blen]. rewrite (utf8_len_ascii _ (ident_start_ascii _ Ed)). lia.
    - revert H. unfold keyword_kind. repeat (arm; [intros [=]|]). intros [=]. }
  arm; [arm; intros [=]|].
  arm.
  { repeat match goal with
    | |- context [if ?b then _ else _] => destruct b
    | |- context [match ?b with _ => _ end] => destruct b
    end; intros [=]. }
  arm.
  { repeat match goal with
    | |- context [if ?b then _ else _] => destruct b
    | |- context [match ?b with _ => _ end] => destruct b
    end; intros [=]. }
  arm.
  { repeat match goal with
    | |- context [if ?b then _ else _] => destruct b
    | |- context [match ?b with _ => _ end] => destruct b
    end; intros [=]. }
  repeat match goal with
  | |- context [if ?b then _ else _] => destruct b
  end; intros [=].
Qed.
Lemma lexeme_name dir w rest e : Lexeme dir w rest Name e -> Identifier w.
Proof.
  remember Name as k eqn:Ek. intro L. destruct L; try discriminate Ek.
  - assumption.
  - subst k. match goal with A : AtKind _ _ |- _ => inversion A end.
  - subst k. match goal with I : In _ punctuation |- _ => cbn in I; repeat destruct I as [I|I]; try discriminate I; now destruct I end.
Qed.
Lemma tokens_name src b toks errs tok : tokenize src b = Ret (toks, errs) -> In tok toks -> tk_kind tok = Name -> is_identifier (tk_text tok) = true.
Proof.
  intros H Hin Hk. destruct (token_at _ _ _ _ _ H Hin) as (before & after & len & k & err & d & _ & _ & _ & Hn & Hl & Ek & _).
  assert (k = Name) as -> by (destruct k; cbn in Ek; congruence).
  destruct (next_token_sound QLeft _ _ _ _ Hn) as (w & rest & E & B & L). apply is_identifier_spec.
  assert (tk_text tok = w) as -> by (rewrite <- (prefix_app w rest (blen w) eq_refl), <- E; symmetry; apply prefix_app; lia). exact (lexeme_name _ _ _ _ L).
Qed.
Lemma tokens_var src b toks errs : tokenize src b = Ret (toks, errs) -> Forall VarTok toks.
Proof.
  intro H. apply Forall_forall. intros tok Hin. split; [|now apply (tokens_name _ _ _ _ _ H)]. intro Hk.
  destruct (token_at _ _ _ _ _ H Hin) as (before & after & len & k & err & d & _ & _ & _ & Hn & Hl & Ek & _).
  assert (k = VarName) as -> by (destruct k; cbn in Ek; congruence).
  apply next_token_var in Hn as (c & x & t & Es & Hc & Hx & H2).
  destruct (tk_text tok) as [|a [|a' r]] eqn:Et.
  - cbn in Hl. lia.
  - cbn [app] in Es. injection Es as -> _. cbn in Hl. lia.
  - cbn [app] in Es. injection Es as -> -> _. cbn [List.tl]. intros [= -> _]. revert Hx. vm_compute. discriminate.
Qed.

(** ** Parsers that yield values with a property *)
Definition Toks (s : pstate) : Prop := Forall VarTok (ps_tokens s).
Definition Y {A} (P : A -> Prop) (m : PM A) : Prop :=
  forall s, Toks s -> match m s with POk a s' => P a /\ Toks s' | PErr s' => Toks s' | _ => True end.
Definition any {A} (a : A) : Prop := True.
Lemma y_ret {A} (P : A -> Prop) a : P a -> Y P (pret a).
Proof. intros H s T. now split. Qed.
Lemma y_bind {A B} (P : A -> Prop) (Q : B -> Prop) (m : PM A) (f : A -> PM B) : Y P m -> (forall a, P a -> Y Q (f a)) -> Y Q (pbind m f).
Proof. intros H K s T. unfold pbind. specialize (H s T). destruct (m s); auto. destruct H as [H T']. now apply K. Qed.
Lemma y_weaken {A} (P Q : A -> Prop) m : Y P m -> (forall a, P a -> Q a) -> Y Q m.
Proof. intros H K s T. specialize (H s T). destruct (m s); auto. destruct H; auto. Qed.
Lemma y_report e : Y any (preport e). Proof. intros s T. now split. Qed.
Lemma y_serr e : Y any (serr e). Proof. apply y_report. Qed.
Lemma y_pfail {A} (P : A -> Prop) e : Y P (pfail e). Proof. intros s T. exact T. Qed.
Lemma y_sfail {A} (P : A -> Prop) e : Y P (sfail e). Proof. apply y_pfail. Qed.
Lemma y_ice {A} (P : A -> Prop) : Y P p_ice. Proof. intros s T. exact I. Qed.
Lemma y_fuel {A} (P : A -> Prop) : Y P (fun _ => PFuel). Proof. intros s T. exact I. Qed.
Lemma y_with_fuel {A} (P : A -> Prop) (f : nat -> PM A) : (forall n, Y P (f n)) -> Y P (with_fuel f).
Proof. intros H s. apply H. Qed.
Definition opt {A} (P : A -> Prop) (o : option A) : Prop := match o with Some a => P a | None => True end.
Lemma y_ok {A} (P : A -> Prop) m : Y P m -> Y (opt P) (p_ok m).
Proof. intros H s T. specialize (H s T). unfold p_ok. destruct (m s); cbn; auto. Qed.
Lemma y_map_err {A} (P : A -> Prop) m h : Y P m -> Y any h -> Y P (map_err m h).
Proof.
  intros H K s T. specialize (H s T). unfold map_err. destruct (m s) as [a s'|s'| |]; auto. specialize (K s' H). destruct (h s'); auto. now destruct K.
Qed.
Lemma y_if {A} (P : A -> Prop) (b : bool) m n : Y P m -> Y P n -> Y P (if b then m else n).
Proof. destruct b; auto. Qed.
Lemma y_poll : Y (opt VarTok) poll.
Proof. intros s T. unfold poll, Toks in *. destruct (ps_tokens s) as [|t l] eqn:E; cbn; [rewrite E; auto|]. inversion T; auto. Qed.
Lemma y_expect_poll : Y VarTok expect_poll.
Proof. eapply y_bind; [apply y_poll|]. intros [t|] H; [now apply y_ret|apply y_pfail]. Qed.
Lemma y_poll_if p : Y (opt (fun t => p t = true /\ VarTok t)) (poll_if p).
Proof.
  intros s T. unfold poll_if, peek, pbind, poll, pret, Toks in *. destruct (ps_tokens s) as [|t l] eqn:E; cbn; [rewrite E; auto|].
  destruct (p t) eqn:Ep; cbn; [|rewrite E; auto]. rewrite E. cbn. inversion T; auto.
Qed.
Lemma y_poll_if_kind k : Y (opt (fun t => kind_eqb (tk_kind t) k = true /\ VarTok t)) (poll_if_kind k).
Proof. apply y_poll_if. Qed.
Lemma y_expect_poll_kind k : Y (fun t => kind_eqb (tk_kind t) k = true /\ VarTok t) (expect_poll_kind k).
Proof.
  intros s T. unfold expect_poll_kind, expect_poll, peek, pbind, poll, pret, Toks in *. destruct (ps_tokens s) as [|t l] eqn:E; cbn.
  - rewrite E. cbn. rewrite E. constructor.
  - destruct (kind_eqb _ _) eqn:Ek; cbn; rewrite E; cbn; inversion T; auto.
Qed.
Lemma y_skip : Y any skip_whitespace.
Proof. eapply y_bind; [apply y_poll_if|]. intros ? _. now apply y_ret. Qed.
Lemma y_has_next p : Y any (has_next p).
Proof. intros s T. cbn. now split. Qed.
Lemma y_any {A} (m : PM A) P : Y P m -> Y any m.
Proof. intro H. eapply y_weaken; [exact H|]. now intros. Qed.
Lemma y_groups fuel : forall t, Y any (parse_groups fuel t).
Proof.
  induction fuel as [|fuel IH]; intro t; [apply y_fuel|]. cbn [parse_groups]. eapply y_bind; [apply y_skip|]. intros _ _.
  eapply y_bind; [apply y_poll_if|]. intros [tok|] _; [|now apply y_ret]. eapply (y_bind any); [|intros; apply IH].
  unfold group_type. repeat apply y_if; try now apply y_ret.
Qed.
Lemma y_type : Y any parse_type.
Proof.
  eapply y_bind; [apply y_skip|]. intros _ _. eapply y_bind; [apply y_expect_poll_kind|]. intros b _.
  eapply (y_bind any); [|intros t _ s; apply (y_groups _ t s)]. destruct (base_type _); [now apply y_ret|].
  eapply y_bind; [apply y_report|]. intros; now apply y_ret.
Qed.

Ltac y1 :=
  first
  [ apply y_serr | apply y_report | apply y_sfail | apply y_pfail | apply y_ice | apply y_fuel | apply y_skip
  | apply y_expect_poll_kind | apply y_poll_if_kind | apply y_poll_if | apply y_expect_poll | apply y_poll | apply y_has_next | apply y_type ].
(* bind on a known primitive *)
Ltac yb := eapply y_bind; [y1|intros ? ?].

Lemma is_plain_intro n : is_identifier n = true -> is_plain n = true.
Proof.
  intro H. destruct (ident_plain n H) as [A B]. unfold is_plain. rewrite andb_true_iff, negb_true_iff, forallb_forall. split.
  - destruct n; [now elim A|reflexivity].
  - rewrite Forall_forall in B. intros c Hc. apply negb_true_iff. destruct (existsb _ _) eqn:E; [|reflexivity]. apply existsb_exists in E as (x & Hx & E).
    apply N.eqb_eq in E. subst x. now elim (B c Hc).
Qed.
Lemma y_tok_name t : VarTok t -> Y (fun n => (tk_kind t = VarName -> n <> n_anonymous) /\ (tk_kind t = Name -> is_plain n = true)) (tok_name_id t).
Proof.
  intros [V W]. unfold tok_name_id. destruct (tk_kind t) eqn:E; try apply y_ice; apply y_ret; split; intro K; try discriminate; auto.
  now apply is_plain_intro, W.
Qed.
Lemma ident_lower s : is_identifier s = true -> is_identifier (ascii_lower s) = true.
Proof. intro H. apply is_identifier_spec, lower_map_ident, is_identifier_spec, H. Qed.
Lemma y_lowercase t : VarTok t -> Y (fun n => is_plain n = true) (tok_lowercase_name_id t).
Proof.
  intros [_ V]. unfold tok_lowercase_name_id. destruct (is_kind Name t) eqn:E; [|apply y_ice]. apply y_ret. apply is_plain_intro, ident_lower, V.
  unfold is_kind in E. destruct (tk_kind t); cbn in E; congruence.
Qed.
Lemma y_number t : Y any (p_number t).
Proof. unfold p_number. destruct (parse_number _); [now apply y_ret|apply y_sfail]. Qed.
Lemma y_unescape t : Y any (p_unescape t).
Proof.
  unfold p_unescape. destruct (unescape_char _) as [[c [e|]]| |]; try apply y_ice; [|now apply y_ret]. yb. now apply y_ret.
Qed.
Lemma y_name_loop fuel : forall n, Y any (name_loop fuel n).
Proof.
  induction fuel as [|fuel IH]; intro n; [apply y_fuel|]. cbn [name_loop]. eapply y_bind; [apply y_poll_if|]. intros [tok|] _; [|now apply y_ret].
  cbv zeta. eapply y_bind; [apply y_poll_if_kind|]. intros [i|] _.
  - eapply y_bind; [apply y_number|]. intros; apply IH.
  - eapply y_bind; [apply y_expect_poll_kind|]. intros a [_ V]. eapply y_bind; [now apply y_tok_name|]. intros; apply IH.
Qed.
Lemma y_name t : VarTok t -> Y any (parse_name t).
Proof. intro V. eapply y_bind; [now apply y_tok_name|]. intros n _. apply y_with_fuel. intro. apply y_name_loop. Qed.
Lemma y_text_loop fuel : forall t, Y any (text_loop fuel t).
Proof.
  induction fuel as [|fuel IH]; intro t; [apply y_fuel|]. cbn [text_loop]. eapply y_bind; [apply y_poll_if|]. intros [tok|] _; [apply IH|now apply y_ret].
Qed.
Lemma y_spread a b : Y any (poll_if_spread a b).
Proof.
  unfold poll_if_spread. eapply y_bind; [apply y_poll_if|]. intros [t|] _; [|now apply y_ret].
  repeat apply y_if; first [now apply y_ret | yb; now apply y_ret].
Qed.
Lemma y_template_loop fuel : forall decode open k parts braces, Y any (template_loop fuel decode open k parts braces).
Proof.
  induction fuel as [|fuel IH]; intros; [apply y_fuel|]. cbn [template_loop]. cbv zeta.
  eapply y_bind; [apply y_map_err; [apply y_expect_poll|apply y_serr]|]. intros tok V.
  match goal with |- Y _ (match _ with Name => ?l | _ => _ end) => set (literal := l) end.
  assert (L : Y any literal).
  { unfold literal. destruct parts as [|[[s|c|n|] e] before]; try apply IH. apply y_if; apply IH. }
  destruct (tk_kind tok) eqn:Ek;
    first [ exact L | apply IH | yb; apply IH | destruct braces; [yb|]; apply IH
          | eapply y_bind; [apply y_ok; now apply y_name|]; intros; apply IH
          | eapply y_bind; [apply y_unescape|]; intros; apply IH
          | destruct (decode_entity _ _) as [c e]; eapply (y_bind any); [destruct e; [apply y_serr|now apply y_ret]|]; intros; apply IH
          | apply y_if; [now apply y_ret|exact L] ].
Qed.
Lemma y_report_unmatched l : Y any (report_unmatched l).
Proof. induction l; cbn; [now apply y_ret|]. yb. apply IHl. Qed.
Lemma y_template_parts decode open k : Y any (parse_template_parts decode open k).
Proof.
  unfold parse_template_parts. eapply y_bind; [apply y_with_fuel; intro; apply y_template_loop|]. intros r _. eapply y_bind; [apply y_report_unmatched|]. intros; now apply y_ret.
Qed.
Lemma y_check_args l : forall a u, Y any (check_args l a u).
Proof.
  induction l as [|[n k e] l IH]; intros; cbn [check_args]; [now apply y_ret|]. apply y_if.
  - eapply (y_bind any); [apply y_if; [apply y_serr|now apply y_ret]|]. intros; apply IH.
  - destruct k; [| |apply IH]; (eapply (y_bind any); [apply y_if; [apply y_serr|now apply y_ret]|]; intros; apply IH).
Qed.
Lemma y_check_attrs l : forall u, Y any (check_attrs l u).
Proof.
  induction l as [|[n k e|e] l IH]; intros; cbn [check_attrs]; [now apply y_ret| |apply IH].
  eapply (y_bind any); [apply y_if; [apply y_serr|now apply y_ret]|]. intros; apply IH.
Qed.
Lemma y_name_pattern t : VarTok t -> Y any (parse_name_pattern t).
Proof. intro V. unfold parse_name_pattern. eapply y_bind; [now apply y_name|]. intros [n|n b c|n b i] _; [now apply y_ret| |]; apply y_sfail. Qed.

(** ** Regular expressions of templates *)
Lemma flat_map_snoc {A B} (f : A -> list B) l x : flat_map f (l ++ [x]) = flat_map f l ++ f x.
Proof. rewrite flat_map_app. cbn. now rewrite app_nil_r. Qed.
Lemma y_template_regex : forall parts ps, Forall SimplePart ps ->
  Y (fun r => exists ps', Forall SimplePart ps' /\ fst r = lit "^(?s:" ++ flat_map (regex_part regex_escape) ps' /\ snd r = regex_vars ps')
    (template_regex parts (lit "^(?s:" ++ flat_map (regex_part regex_escape) ps) (regex_vars ps)).
Proof.
  assert (S : forall ps p, Forall SimplePart ps -> SimplePart p -> Forall SimplePart (ps ++ [p])) by (intros; apply Forall_app; auto).
  assert (L : forall p, (forall n, p <> TPName n) -> SimplePart p) by (intros p H n ->; now destruct (H n)).
  induction parts as [|[s|c|[n|n b a|n b i]|] parts IH]; intros ps H; cbn [template_regex].
  - apply y_ret. exists ps. auto.
  - specialize (IH (ps ++ [TPLit s])). unfold regex_vars in *. rewrite !flat_map_snoc in IH. cbn [regex_part] in IH. rewrite app_nil_r in IH.
    rewrite <- app_assoc. apply IH. apply S; auto. apply L. discriminate.
  - specialize (IH (ps ++ [TPChar c])). unfold regex_vars in *. rewrite !flat_map_snoc in IH. cbn [regex_part] in IH. rewrite app_nil_r in IH.
    rewrite <- app_assoc. apply IH. apply S; auto. apply L. discriminate.
  - specialize (IH (ps ++ [TPName (NSimple n)])). unfold regex_vars in *. rewrite !flat_map_snoc in IH. cbn [regex_part] in IH.
    rewrite <- app_assoc. apply IH. apply S; auto. intros m [= <-]. eauto.
  - yb. now apply IH.
  - yb. now apply IH.
  - specialize (IH (ps ++ [TPWhitespace])). unfold regex_vars in *. rewrite !flat_map_snoc in IH. cbn [regex_part] in IH. rewrite app_nil_r in IH.
    rewrite <- app_assoc. apply IH. apply S; auto. apply L. discriminate.
Qed.

(** What the parser ensures *)
Definition made (groups : str -> nat) : checks :=
  Checks (fun _ => true) wf_sig (fun _ _ _ => true) (fun _ => true) (wf_pattern groups) is_plain.
Section Wf.
  Variable src : str.
  Variable decode : str -> str.
  Variable regex_ok : str -> bool.
  Variable groups : str -> nat.
  Hypothesis regex_groups : forall ps, Forall SimplePart ps -> regex_ok (regex_text regex_escape ps) = true ->
    groups (regex_text regex_escape ps) = length (regex_vars ps).
  Local Notation C := (made groups).
  Local Notation WE := (fun e => every_expr C e = true).
  Local Notation WN := (fun n => every_node C n = true).
  Local Notation WP := (fun p => every_pattern C p = true).
  Local Notation WA := (fun a => every_arg C a = true).

  Lemma all_true {A} (l : list A) : forallb (fun _ => true) l = true.
  Proof. induction l; auto. Qed.
  Lemma forallb_Forall {A} (f : A -> bool) l : Forall (fun x => f x = true) l -> forallb f l = true.
  Proof. intro H. apply forallb_forall. now apply Forall_forall. Qed.

  Section Loops.
    Variable node_ : token -> PM node.
    Hypothesis HN : forall t, VarTok t -> Y WN (node_ t).
    Lemma y_nodes_loop closer fuel : Y (fun r => Forall WN (fst r)) (nodes_loop node_ closer fuel).
    Proof.
      induction fuel as [|fuel IH]; [apply y_fuel|]. cbn [nodes_loop]. eapply y_bind; [apply y_poll|]. intros [t|] V; [|apply y_ret; constructor].
      apply y_if; [apply y_ret; constructor|]. eapply y_bind; [apply y_ok; now apply HN|]. intros o Ho. eapply y_bind; [apply IH|].
      intros r Hr. apply y_ret. cbn. destruct o; auto.
    Qed.
    Lemma pop_forall P l : Forall P l -> Forall P (pop_whitespace l).
    Proof.
      induction l as [|n l IH]; cbn; [auto|]. intro H. inversion H as [|? ? H1 H2]; subst. specialize (IH H2).
      destruct (pop_whitespace l); [destruct (node_is_whitespace n); auto|]. constructor; auto.
    Qed.
    Lemma y_nodes_until closer : Y (fun r => Forall WN (fst r)) (parse_nodes_until node_ closer).
    Proof.
      unfold parse_nodes_until. yb. eapply y_bind; [apply y_with_fuel; intro; apply y_nodes_loop|]. intros r Hr. apply y_ret. now apply pop_forall.
    Qed.
    Lemma y_ellipsis_loop fuel : Y (Forall WN) (ellipsis_loop node_ fuel).
    Proof.
      induction fuel as [|fuel IH]; [apply y_fuel|]. cbn [ellipsis_loop]. eapply y_bind; [apply y_poll_if|]. intros [t|] V; [|apply y_ret; constructor].
      destruct V as [_ V]. eapply y_bind; [apply y_ok; now apply HN|]. intros o Ho. eapply y_bind; [apply IH|].
      intros r Hr. apply y_ret. destruct o; auto.
    Qed.
    Lemma group_wf ns : Forall WN ns -> WE (group_of ns).
    Proof. intro H. destruct ns; [reflexivity|]. unfold group_of. cbn [every_expr]. now apply forallb_Forall. Qed.
  End Loops.
  Lemma y_separated {A} (P : A -> Prop) open (p : PM A) sep close : Y P p -> Y (fun r => Forall P (fst r)) (parse_separated_until open p sep close).
  Proof.
    intro H. unfold parse_separated_until. apply y_with_fuel. intro n. generalize false. induction n as [|n IH]; intro b; [apply y_fuel|]. cbn [separated_loop].
    yb. eapply (y_bind any); [destruct b; [eapply y_any, y_ok, y_expect_poll_kind|eapply y_any, y_poll_if_kind]|]. intros [c|] _; [apply y_ret; constructor|].
    eapply y_bind; [apply y_map_err; [exact H|yb; apply y_serr]|]. intros x Hx. yb.
    eapply (y_bind any); [apply y_if; [now apply y_ret|yb; now apply y_ret]|]. intros b' _. eapply y_bind; [apply IH|]. intros r Hr. apply y_ret. cbn. auto.
  Qed.
  Lemma y_check_params rs : forall s, Y (fun s' =>
     ss_positional s' + (if ss_positional_spread s' then 1 else 0) + ss_named s' + (if ss_named_spread s' then 1 else 0)
     <= ss_positional s + (if ss_positional_spread s then 1 else 0) + ss_named s + (if ss_named_spread s then 1 else 0) + length rs)
    (check_params rs s).
  Proof.
    induction rs as [|[[[name q i t d] kind] u] rs IH]; intro s; cbn [check_params]; [apply y_ret; cbn; lia|].
    eapply (y_bind (fun s' =>
      ss_positional s' + (if ss_positional_spread s' then 1 else 0) + ss_named s' + (if ss_named_spread s' then 1 else 0)
      <= S (ss_positional s + (if ss_positional_spread s then 1 else 0) + ss_named s + (if ss_named_spread s then 1 else 0)))).
    - unfold check_param. destruct s as [an us ao aon np sp nn sn]. cbv zeta.
      eapply (y_bind any); [repeat apply y_if; solve [apply y_serr|now apply y_ret]|]. intros _ _.
      destruct (match kind with NoSpread => u | PosSpread => true | NamedSpread => false end) eqn:Ep.
      all: destruct kind; cbn [negb]; rewrite ?Ep; try discriminate Ep.
      all: repeat match goal with |- Y _ (pbind _ _) => eapply (y_bind any); [apply y_if; solve [apply y_serr|now apply y_ret]|intros _ _] end.
      all: try (subst u); apply y_ret; cbn; destruct sp, sn; lia.
    - intros s' Hs. eapply y_weaken; [apply IH|]. cbn beta. intros a Ha. cbn [length]. lia.
  Qed.

  Lemma y_named_args l : Forall WA l -> Y (Forall (fun ne => is_plain (fst ne) = true /\ every_expr C (snd ne) = true)) (named_args l).
  Proof.
    induction l as [|[n k e] l IH]; intro H; cbn [named_args]; [apply y_ret; constructor|]. inversion H as [|? ? H1 H2]; subst. specialize (IH H2).
    destruct k; [|yb; exact IH|yb; exact IH]. unfold arg_positional. rewrite andb_true_r. destruct (is_anonymous n) eqn:En; [yb; exact IH|]. eapply y_bind; [exact IH|]. intros r Hr. apply y_ret.
    cbn [every_arg] in H1. rewrite En in H1. apply andb_true_iff in H1. constructor; [exact H1|exact Hr].
  Qed.
  Lemma y_spread_index l : forall i o, (forall j, o = Some j -> j < i) -> Y (fun r => forall j, r = Some j -> j < i + length l) (spread_index l i o).
  Proof.
    induction l as [|[p b] l IH]; intros i o H; cbn [spread_index].
    - apply y_ret. intros j Hj. apply H in Hj. cbn. lia.
    - destruct b.
      + eapply (y_bind any); [apply y_if; [apply y_serr|now apply y_ret]|]. intros _ _. eapply y_weaken; [apply IH|].
        * intros j [= <-]. lia.
        * cbn beta. intros a K j Hj. apply K in Hj. cbn. lia.
      + eapply y_weaken; [apply IH|].
        * intros j Hj. apply H in Hj. lia.
        * cbn beta. intros a K j Hj. apply K in Hj. cbn. lia.
  Qed.
  Lemma y_check_html l : Y any (check_html_patterns l).
  Proof. induction l; cbn; [now apply y_ret|]. eapply (y_bind any); [apply y_if; [now apply y_ret|apply y_serr]|]. intros; exact IHl. Qed.
  Local Notation WPs := (fun l : nmap pattern => Forall (fun kp => every_pattern C (snd kp) = true) l).
  Lemma ninsert_forall (l : nmap pattern) n p : WPs l -> WP p -> WPs (ninsert l n p).
  Proof.
    induction l as [|[k v] l IH]; intros H Hp; cbn; [constructor; auto|]. inversion H; subst.
    destruct (str_eqb _ _); constructor; auto.
  Qed.
  Lemma y_dict_parts l : Forall (fun np : named_pattern => WP (snd np)) l -> forall attrs spread, WPs attrs -> opt WP spread ->
    Y (fun r => WPs (fst r) /\ opt WP (snd r)) (dict_parts l attrs spread).
  Proof.
    induction l as [|[[n|] p] l IH]; intros H attrs spread Ha Hs; cbn [dict_parts]; [now apply y_ret| |]; inversion H as [|? ? H1 H2]; subst; specialize (IH H2).
    - apply y_if; [yb; now apply IH|]. eapply (y_bind any); [apply y_if; [apply y_serr|now apply y_ret]|]. intros _ _. apply IH; auto. now apply ninsert_forall.
    - eapply (y_bind any); [apply y_if; [apply y_serr|now apply y_ret]|]. intros _ _. apply IH; auto.
  Qed.
  Lemma dict_wf attrs spread : WPs attrs -> opt WP spread -> WP (PDict attrs spread).
  Proof. intros Ha Hs. cbn. rewrite andb_true_iff. split; [now apply forallb_Forall|]. destruct spread; auto. Qed.
  Lemma y_make_dict l simplify : Forall (fun np : named_pattern => WP (snd np)) l -> Y WP (make_dict_pattern l simplify).
  Proof.
    intro H. unfold make_dict_pattern. eapply y_bind; [apply (y_dict_parts l H); [constructor|exact I]|]. intros [attrs spread] [Ha Hs]. cbn [fst snd] in *.
    destruct attrs as [|a attrs].
    - destruct spread as [p|]; [|apply y_ret; now apply dict_wf]. apply y_if; apply y_ret; [exact Hs|now apply dict_wf].
    - apply y_ret. now apply dict_wf.
  Qed.
  Lemma y_typed p : WP p -> Y WP (parse_optional_typed_pattern p).
  Proof.
    intro H. unfold parse_optional_typed_pattern. yb. eapply y_bind; [apply y_poll_if_kind|]. intros [c|] _; [|now apply y_ret]. yb.
    eapply y_bind; [apply y_poll_if_kind|]. intros v Hv. eapply (y_bind WP).
    - destruct v as [v|]; [destruct Hv as [_ V]; eapply y_bind; [now apply y_name_pattern|]|eapply y_bind; [apply y_type|]]; intros; now apply y_ret.
    - intros q Hq. apply y_ret. destruct p; cbn in *; auto; rewrite ?andb_true_iff in *; auto.
  Qed.

  Section Step.
    Variable R : parsers.
    Hypothesis HE : forall t, VarTok t -> Y WE (r_expr_tok R t).
    Hypothesis HP : Y WP (r_pattern R).
    Hypothesis HN : forall t, VarTok t -> Y WN (r_node R t).

    Lemma y_expr : Y WE (parse_expr R).
    Proof. unfold parse_expr. yb. eapply y_bind; [apply y_expect_poll|]. intros t V. now apply HE. Qed.
    Lemma y_ellipsis : Y WE (parse_ellipsis_group R).
    Proof.
      unfold parse_ellipsis_group. eapply y_bind; [apply y_with_fuel; intro; apply y_ellipsis_loop; exact HN|]. intros l Hl. apply y_ret. now apply group_wf.
    Qed.
    Lemma y_expr_or_ellipsis : Y WE (parse_expr_or_ellipsis R).
    Proof. unfold parse_expr_or_ellipsis. yb. yb. apply y_if; [apply y_ellipsis|apply y_expr]. Qed.
    Lemma y_group open : Y WE (parse_group R open).
    Proof.
      unfold parse_group. eapply y_bind; [apply y_nodes_until; exact HN|]. intros r Hr. eapply (y_bind any); [apply y_if; [now apply y_ret|apply y_serr]|].
      intros _ _. apply y_ret. now apply group_wf.
    Qed.
    Lemma y_arg : Y WA (parse_arg R).
    Proof.
      unfold parse_arg. yb. eapply y_bind; [apply y_spread|]. intros k _. yb. eapply y_bind; [apply y_poll_if_kind|]. intros [t|] Ht.
      - yb. yb. apply y_if; [|now apply y_ret]. eapply (y_bind any); [destruct k; [now apply y_ret|apply y_serr|apply y_serr]|]. intros _ _.
        eapply y_bind; [apply y_expr|]. intros v Hv. eapply y_bind; [apply y_tok_name; exact (proj2 Ht)|]. intros n [_ Hn]. apply y_ret.
        cbn [every_arg c_written made]. rewrite Hn, orb_true_r; [exact Hv|]. destruct Ht as [K _]. destruct (tk_kind t); cbn in K; congruence.
      - eapply y_bind; [apply y_expr|]. intros v Hv. apply y_ret. exact Hv.
    Qed.
    Lemma y_args : Y (Forall WA) (parse_args R).
    Proof.
      unfold parse_args. yb. eapply y_bind; [apply y_poll_if_kind|]. intros [t|] _; [|apply y_ret; constructor].
      eapply y_bind; [apply y_separated, y_arg|]. intros r Hr. eapply y_bind; [apply y_check_args|]. intros _ _. now apply y_ret.
    Qed.
    Lemma y_list_item : Y (fun r : expr * bool => WE (fst r)) (parse_list_item R).
    Proof.
      unfold parse_list_item. eapply y_bind; [apply y_arg|]. intros [n k v] Hv. eapply (y_bind any).
      - destruct k; [apply y_if|apply y_if|]; solve [apply y_serr|now apply y_ret].
      - intros _ _. apply y_ret. cbn [every_arg] in Hv. apply andb_true_iff in Hv. exact (proj2 Hv).
    Qed.
    Lemma y_list open : Y WE (parse_list R open).
    Proof.
      unfold parse_list. eapply y_bind; [apply y_separated, y_list_item|]. intros r Hr. apply y_ret. cbn [every_expr]. now apply forallb_Forall.
    Qed.
    Local Notation WR := (fun r : raw_param => every_param C (fst (fst r)) = true /\ param_name (fst (fst r)) <> n_anonymous).
    Lemma y_param : Y WR (parse_param R).
    Proof.
      unfold parse_param. yb. eapply y_bind; [apply y_spread|]. intros k _. yb. eapply y_bind; [apply y_expect_poll_kind|]. intros t [Hk V].
      eapply y_bind; [apply (y_tok_name t V)|]. cbn beta. intros n Hn. cbv zeta.
      assert (Hn' : n <> n_anonymous) by (apply (proj1 Hn); destruct (tk_kind t); cbn in Hk; congruence).
      yb. yb. yb. yb. eapply (y_bind any).
      - apply y_if; [|now apply y_ret]. yb. yb. eapply y_bind; [eapply y_any, y_ok, y_type|]. intros; now apply y_ret.
      - intros [i ty] _. yb. yb. eapply (y_bind (opt WE)).
        + apply y_if; [eapply y_bind; [apply y_expr|]; intros; now apply y_ret|now apply y_ret].
        + intros d Hd. eapply (y_bind any); [apply y_if; [apply y_serr|now apply y_ret]|]. intros _ _. apply y_ret. cbn. split; [destruct d; auto|exact Hn'].
    Qed.
    Lemma params_wf ps : Forall WR ps ->
      forallb (every_param C) (List.map (fun p => fst (fst p)) ps) = true /\
      mem n_anonymous (List.map param_name (List.map (fun p : raw_param => fst (fst p)) ps)) = false.
    Proof.
      intro H. split.
      - apply forallb_Forall. apply Forall_map. eapply Forall_impl; [|exact H]. now intros a [K _].
      - destruct (mem _ _) eqn:E; [|reflexivity]. exfalso. apply mem_In in E. rewrite map_map, in_map_iff in E. destruct E as (x & Ex & Hx).
        rewrite Forall_forall in H. now destruct (H x Hx).
    Qed.
    Local Notation WS := (fun s => every_sig C s = true).
    Lemma y_signature : Y WS (parse_signature R).
    Proof.
      unfold parse_signature. yb. eapply y_bind; [apply y_poll_if_kind|]. intros o _.
      eapply (y_bind (fun r : list param * sigst => let '(ps, s) := r in
         forallb (every_param C) ps = true /\ mem n_anonymous (List.map param_name ps) = false /\
         ss_positional s + (if ss_positional_spread s then 1 else 0) + ss_named s + (if ss_named_spread s then 1 else 0) <= length ps)).
      - destruct o as [t|]; [|apply y_ret; cbn; auto]. eapply y_bind; [apply y_separated, y_param|]. intros r Hr.
        eapply y_bind; [apply y_check_params|]. cbn beta. intros s Hs. apply y_ret. destruct (params_wf _ Hr). repeat split; auto. rewrite map_length.
        etransitivity; [exact Hs|]. exact (le_n _).
      - intros [ps s] (A & B & D). yb. yb. apply y_if.
        + apply y_ret. unfold every_sig. fold (every_param C). cbn [c_sig made wf_sig]. rewrite A, B, andb_true_r. cbn [negb]. rewrite andb_true_r. apply Nat.leb_le. lia.
        + eapply y_bind; [apply y_param|]. intros [[[n q i ty d] k] u] [Hd Hn]. cbn [fst param_name] in *.
          eapply (y_bind any); [destruct k; [apply y_if|..]; solve [apply y_serr|now apply y_ret]|]. intros _ _. apply y_ret.
          unfold every_sig. fold (every_param C). cbn [c_sig made wf_sig]. rewrite !andb_true_iff. repeat split.
          * apply Nat.leb_le. rewrite app_length. cbn [length]. lia.
          * rewrite map_app. cbn [List.map param_name]. destruct (mem n_anonymous (_ ++ [n])) eqn:E; [|reflexivity]. apply mem_In in E. apply in_app_iff in E as [E|[E|[]]].
            -- apply mem_In in E. congruence.
            -- contradiction.
          * rewrite forallb_app, A. cbn [forallb andb]. rewrite andb_true_r. exact Hd.
    Qed.
    Local Notation WD := (fun d => every_def C d = true).
    Lemma y_func_def b : Y (fun d => WD d /\ (b = false -> match d with FuncDef n _ _ => is_plain n = true end)) (parse_func_def R b).
    Proof.
      unfold parse_func_def. yb. eapply y_bind; [apply y_poll_if_kind|]. intros o Ho. eapply (y_bind (fun n => n = n_anonymous \/ is_plain n = true)).
      { destruct o as [t|]; [|apply y_ret; now left]. destruct Ho as [K V]. eapply y_weaken; [apply (y_tok_name t V)|]. cbn beta. intros n [_ Hn]. right. apply Hn.
        destruct (tk_kind t); cbn in K; congruence. }
      intros n Hn. eapply y_bind; [apply y_signature|]. intros s Hs. yb. yb. eapply y_bind; [apply y_expr|]. intros e He.
      destruct (is_anonymous n && negb b) eqn:Ea; [apply y_sfail|].
      apply y_ret. split; [cbn [every_def]; fold (every_sig C) (every_expr C); cbn beta in *; now rewrite Hs, He|].
      intros ->. destruct Hn as [-> |Hn]; [discriminate Ea|exact Hn].
    Qed.
    Lemma y_func_call t : VarTok t -> Y WE (parse_func_call src R t).
    Proof.
      intro V. unfold parse_func_call. eapply y_bind; [now apply y_name|]. intros f _. eapply y_bind; [apply y_args|]. intros l Hl.
      eapply y_bind; [apply y_expr_or_ellipsis|]. intros e He. apply y_ret. cbn [every_expr c_call made andb]. rewrite andb_true_iff. split; [now apply forallb_Forall|exact He].
    Qed.
    Local Notation WV := (Forall (fun ne : str * expr => is_plain (fst ne) = true /\ every_expr C (snd ne) = true)).
    Lemma y_some_named : Y WV (parse_some_named_args R).
    Proof.
      unfold parse_some_named_args. eapply y_bind; [apply y_args|]. intros l Hl. destruct l; [apply y_sfail|]. now apply y_named_args.
    Qed.
    Lemma y_let t b : Y (fun l => every_let C l = true /\ match l with LetIn _ vars _ => Forall (fun ne => is_plain (fst ne) = true) vars end) (parse_let_in R t b).
    Proof.
      unfold parse_let_in. eapply y_bind; [apply y_some_named|]. intros l Hl. eapply y_bind; [apply y_expr_or_ellipsis|]. intros e He.
      eapply (y_bind any); [apply y_if; [apply y_serr|now apply y_ret]|]. intros _ _. apply y_ret. cbn [every_let c_let made andb]. rewrite andb_true_iff.
      split; [split; [apply forallb_Forall|exact He]|]; eapply Forall_impl; [|exact Hl|  |exact Hl]; cbn beta; tauto.
    Qed.
    Lemma y_export : Y (fun e => every_export C e = true) (parse_export R).
    Proof.
      unfold parse_export. yb. yb. apply y_if.
      - eapply y_bind; [apply y_func_def|]. intros [n s e] [Hd Hn]. apply y_ret. cbn [every_export c_name c_written made andb]. now rewrite (Hn eq_refl).
      - eapply y_bind; [apply y_poll_if_kind|]. intros [t|] _.
        + eapply y_bind; [apply y_let|]. intros [i vars e] [Hl Hv]. apply y_ret. cbn [every_export c_name c_written made andb].
          rewrite andb_true_iff. split; [now apply forallb_Forall|exact Hl].
        + eapply y_bind; [apply y_some_named|]. intros l Hl. yb. yb. apply y_ret. cbn [every_export c_name c_written made andb]. apply forallb_Forall.
          eapply Forall_impl; [|exact Hl]. cbn beta. intros x Hx. now apply andb_true_iff.
    Qed.
    Lemma y_tag_attr : Y (fun a => every_attr C a = true) (parse_tag_attribute R).
    Proof.
      unfold parse_tag_attribute. yb. eapply y_bind; [apply y_spread|]. intros k _. destruct k.
      2,3: eapply y_bind; [apply y_expr|]; intros e He; apply y_ret; exact He.
      yb. eapply y_bind; [apply y_expect_poll_kind|]. intros t [K V]. eapply y_bind; [now apply y_tok_name|]. cbn beta. intros n [_ Hn].
      assert (Hp : is_plain n = true) by (apply Hn; destruct (tk_kind t); cbn in K; congruence).
      yb. yb. yb. yb.
      apply y_if; [eapply y_bind; [apply y_expr|]; intros e He; apply y_ret; cbn [every_attr c_written made]; now rewrite Hp|].
      apply y_if; [apply y_sfail|]. apply y_ret. cbn [every_attr c_written made]. now rewrite Hp.
    Qed.
    Lemma y_tag t : Y WE (parse_tag R t).
    Proof.
      unfold parse_tag. eapply y_bind; [apply y_expect_poll|]. intros nt V.
      eapply (y_bind (fun r : tag_name * str => match fst r with TNLit n => is_plain n = true | TNName _ => True end)).
      - destruct (tk_kind nt); try apply y_ice.
        all: first [ eapply y_bind; [now apply y_lowercase|]; intros; apply y_ret; assumption
                   | eapply y_bind; [now apply y_name|]; intros; now apply y_ret
                   | yb; apply y_if; [now apply y_ret|apply y_sfail] ].
      - intros [name id] Hname. cbn [fst] in Hname. eapply y_bind; [apply y_separated, y_tag_attr|]. intros [attrs rangle] Ha. cbn [fst] in Ha.
        assert (Hw : match name with TNLit n => c_written C n | TNName _ => true end = true) by (destruct name; [exact Hname|reflexivity]).
        eapply y_bind; [apply y_check_attrs|]. intros _ _. apply y_if.
        + apply y_ret. cbn [every_expr forallb]. rewrite andb_true_r, Hw. now apply forallb_Forall.
        + eapply y_bind; [apply y_nodes_until; exact HN|]. intros [children [c|]] Hc; [|apply y_sfail]. apply y_ret. cbn [every_expr]. rewrite Hw, andb_true_iff. split; now apply forallb_Forall.
    Qed.
    Lemma y_positional_pattern : Y (fun r : pos_pattern => WP (fst r)) (parse_positional_match_pattern R).
    Proof.
      unfold parse_positional_match_pattern. yb. yb. apply y_if; [now apply y_ret|]. eapply y_bind; [apply y_spread|]. intros k _. eapply y_bind; [apply HP|].
      intros p Hp. now apply y_ret.
    Qed.
    Lemma y_named_pattern b : Y (fun r : named_pattern => WP (snd r)) (parse_named_match_pattern R b).
    Proof.
      unfold parse_named_match_pattern. yb. yb. apply y_if; [now apply y_ret|]. eapply y_bind; [apply y_spread|]. intros k _. destruct k.
      2,3: eapply y_bind; [apply HP|]; intros p Hp; now apply y_ret.
      eapply y_bind; [apply y_expect_poll_kind|]. intros t [_ V]. eapply (y_bind any); [apply y_if; [apply y_serr|now apply y_ret]|]. intros _ _. yb.
      eapply (y_bind any); [apply y_if; [eapply y_any, y_poll_if_kind|eapply y_any, y_ok, y_expect_poll_kind]|]. intros e _.
      eapply y_bind; [now apply y_tok_name|]. intros n _. eapply (y_bind WP); [apply y_if; [apply HP|now apply y_ret]|]. intros p Hp. now apply y_ret.
    Qed.
    Lemma y_seq_pattern open sep close : Y WP (parse_seq_pattern R open sep close).
    Proof.
      unfold parse_seq_pattern. eapply y_bind; [apply y_separated, y_positional_pattern|]. intros r Hr. cbv zeta.
      eapply y_bind; [apply y_spread_index; intros; discriminate|]. cbn beta. intros index Hi.
      eapply (y_bind any); [apply y_if; [now apply y_ret|apply y_check_html]|]. intros _ _. apply y_ret.
      assert (F : forallb (every_pattern C) (List.map fst (fst r)) = true) by (apply forallb_Forall, Forall_map; exact Hr).
      destruct index as [i|].
      - assert (L : (i <? length (List.map fst (fst r))) = true) by (apply Nat.ltb_lt; rewrite map_length; apply Hi; reflexivity).
        destruct (is_kind LSqb open); cbn [every_pattern c_pattern made wf_pattern]; now rewrite L, F.
      - destruct (is_kind LSqb open); [exact F|]. destruct (List.map fst (fst r)); [reflexivity|exact F].
    Qed.
    Lemma y_dict_pattern t : Y WP (parse_dict_pattern R t).
    Proof. unfold parse_dict_pattern. eapply y_bind; [apply y_separated, y_named_pattern|]. intros r Hr. now apply y_make_dict. Qed.
    Lemma y_tag_pattern t : Y WP (parse_tag_pattern R t).
    Proof.
      unfold parse_tag_pattern. eapply y_bind; [apply y_expect_poll|]. intros nt V. eapply (y_bind (fun r : pattern * str => WP (fst r))).
      - destruct (tk_kind nt); try apply y_sfail.
        all: first [ eapply y_bind; [now apply y_lowercase|]; intros; now apply y_ret
                   | eapply y_bind; [now apply y_name_pattern|]; intros; now apply y_ret
                   | now apply y_ret ].
      - intros [name id] Hn. cbn [fst] in Hn. eapply y_bind; [apply y_separated, y_named_pattern|]. intros [raw rangle] Hraw. cbn [fst] in Hraw.
        eapply y_bind; [now apply y_make_dict|]. intros attrs Ha. yb. eapply (y_bind (fun r : pattern * token => WP (fst r))).
        + apply y_if; [now apply y_ret|]. eapply y_bind; [apply y_poll_if_kind|]. intros [c|] _; [now apply y_ret|]. eapply y_bind; [apply HP|]. intros p Hp.
          yb. yb. now apply y_ret.
        + intros [content close] Hc. cbn [fst] in Hc. eapply (y_bind any); [apply y_if; [apply y_serr|now apply y_ret]|]. intros _ _. apply y_ret.
          cbn [every_pattern c_pattern made wf_pattern andb]. cbn beta in *. now rewrite Hn, Ha, Hc.
    Qed.
    Lemma y_template_pattern open k : Y WP (parse_template_pattern decode regex_ok open k).
    Proof.
      unfold parse_template_pattern. eapply y_bind; [apply y_template_parts|]. intros parts _. apply y_if; [now apply y_ret|].
      eapply y_bind; [exact (y_template_regex parts [] (Forall_nil _))|]. cbn beta. intros [re vars] (ps & S & E & Ev). cbn [fst snd] in *. subst re vars. cbv zeta.
      rewrite <- app_assoc. fold (regex_text regex_escape ps). destruct (regex_ok _) eqn:Eo; [|apply y_ice]. apply y_ret.
      cbn [every_pattern c_pattern made wf_pattern]. rewrite (regex_groups ps S Eo), Nat.eqb_refl. apply all_true.
    Qed.
    Lemma y_primary : Y WP (parse_primary_match_pattern decode regex_ok R).
    Proof.
      unfold parse_primary_match_pattern. yb. eapply y_bind; [apply y_expect_poll|]. intros t V. destruct (tk_kind t); try apply y_sfail.
      all: first
        [ now apply y_typed
        | now apply y_ret
        | apply y_tag_pattern | apply y_seq_pattern | apply y_dict_pattern | apply y_template_pattern
        | eapply y_bind; [now apply y_name_pattern|]; intros; now apply y_typed
        | eapply y_bind; [now apply HE|]; intros e He; apply y_ret; exact He
        | eapply y_bind; [apply y_expr|]; intros e He; apply y_ret; exact He ].
    Qed.
    Lemma y_and_loop fuel : forall p, WP p -> Y WP (and_loop decode regex_ok R fuel p).
    Proof.
      induction fuel as [|fuel IH]; intros p Hp; [apply y_fuel|]. cbn [and_loop]. yb. yb. apply y_if; [|now apply y_ret]. eapply y_bind; [apply y_primary|].
      intros q Hq. apply IH. cbn. cbn beta in *. now rewrite Hp, Hq.
    Qed.
    Lemma y_and : Y WP (parse_and_match_pattern decode regex_ok R).
    Proof. unfold parse_and_match_pattern. eapply y_bind; [apply y_primary|]. intros p Hp. apply y_with_fuel. intro. now apply y_and_loop. Qed.
    Lemma y_or_loop fuel : forall p, WP p -> Y WP (or_loop decode regex_ok R fuel p).
    Proof.
      induction fuel as [|fuel IH]; intros p Hp; [apply y_fuel|]. cbn [or_loop]. yb. yb. apply y_if; [|now apply y_ret]. eapply y_bind; [apply y_and|].
      intros q Hq. apply IH. cbn [every_pattern c_pattern c_name made wf_pattern andb]. cbn beta in *. rewrite Hp, Hq. apply all_true.
    Qed.
    Lemma y_pattern : Y WP (parse_match_pattern decode regex_ok R).
    Proof. unfold parse_match_pattern. eapply y_bind; [apply y_and|]. intros p Hp. apply y_with_fuel. intro. now apply y_or_loop. Qed.
    Lemma y_match : Y WE (parse_match R).
    Proof.
      unfold parse_match. eapply y_bind; [apply y_expr|]. intros v Hv. yb. yb.
      eapply (y_bind (fun r => Forall (fun b : pattern * expr => every_pattern C (fst b) && every_expr C (snd b) = true) (fst r))).
      - apply y_separated. unfold parse_match_branch. eapply y_bind; [apply HP|]. intros p Hp. yb. yb. eapply y_bind; [apply y_expr|]. intros e He. apply y_ret.
        cbn [fst snd]. cbn beta in *. now rewrite Hp, He.
      - intros r Hr. apply y_ret. cbn [every_expr]. cbn beta in *. rewrite Hv. now apply forallb_Forall.
    Qed.
    Lemma y_expr_tok t : VarTok t -> Y WE (parse_expr_tok src decode R t).
    Proof.
      intro V. unfold parse_expr_tok. destruct (tk_kind t) eqn:Ek; try apply y_sfail.
      all: try match goal with k : keyword |- _ => destruct k end.
      all: first
        [ apply y_sfail | now apply y_ret
        | now apply y_func_call | apply y_match | apply y_group | apply y_list
        | eapply y_bind; [apply y_number|]; intros; now apply y_ret
        | eapply y_bind; [now apply y_name|]; intros; now apply y_ret
        | eapply y_bind; [apply y_func_def|]; intros d Hd; apply y_ret; exact (proj1 Hd)
        | eapply y_bind; [apply y_let|]; intros l Hl; apply y_ret; exact (proj1 Hl)
        | eapply y_bind; [apply y_has_next|]; intros b _; apply y_if; [apply y_tag|apply y_sfail]
        | eapply y_bind; [apply y_template_parts|]; intros; now apply y_ret ].
    Qed.
    Lemma y_text t : Y WN (parse_text t).
    Proof.
      unfold parse_text. destruct (token_text t); [|apply y_ice]. eapply y_bind; [apply y_with_fuel; intro; apply y_text_loop|]. intros; now apply y_ret.
    Qed.
    Lemma y_node t : VarTok t -> Y WN (parse_node src decode R t).
    Proof.
      intro V. unfold parse_node. destruct (tk_kind t) eqn:Ek.
      all: try match goal with k : keyword |- _ => destruct k end.
      all: first
        [ apply y_text | apply y_sfail | apply y_ice | now apply y_ret
        | eapply y_bind; [now apply y_expr_tok|]; intros e He; apply y_ret; exact He
        | eapply y_bind; [apply y_export|]; intros e He; apply y_ret; exact He
        | eapply y_bind; [apply y_func_def|]; intros [n s e] He; apply y_ret; exact (proj1 He)
        | eapply y_bind; [apply y_unescape|]; intros; now apply y_ret
        | eapply y_bind; [apply y_has_next|]; intros b _; apply y_if; [eapply y_bind; [apply y_tag|]; intros e He; apply y_ret; exact He|apply y_text]
        | destruct (decode_entity _ _) as [c e]; eapply (y_bind any); [destruct e; [apply y_serr|now apply y_ret]|]; intros; now apply y_ret ].
    Qed.
  End Step.
  Lemma parsers_wf fuel : let R := parsers_n src decode regex_ok fuel in
    (forall t, VarTok t -> Y WE (r_expr_tok R t)) /\ Y WP (r_pattern R) /\ (forall t, VarTok t -> Y WN (r_node R t)).
  Proof.
    induction fuel as [|fuel IH]; cbv zeta in *; cbn [parsers_n].
    - repeat split; intros; apply y_fuel.
    - destruct IH as (A & B & D). repeat split; cbn [parser_step r_expr_tok r_pattern r_node].
      + intros t V. now apply y_expr_tok.
      + now apply y_pattern.
      + intros t V. now apply y_node.
  Qed.
  Lemma parse_made text ns errs : parse decode regex_ok src text = Ret (ns, errs) -> forallb (every_node C) ns = true.
  Proof.
    unfold parse. destruct (tokenize text true) as [[toks e]| |] eqn:Et; try discriminate. cbn [obind fst snd].
    assert (H : Y (Forall WN) (parse_root src decode regex_ok)).
    { unfold parse_root. apply y_with_fuel. intro n. eapply y_bind; [apply y_nodes_until; apply parsers_wf|]. intros r Hr. now apply y_ret. }
    set (s0 := PState _ _). specialize (H s0 (tokens_var _ _ _ _ Et)). destruct (parse_root _ _ _ s0) as [a s|s| |]; try discriminate.
    - intros [= <- <-]. destruct H as [H _]. now apply forallb_Forall.
    - intros [= <- <-]. reflexivity.
  Qed.
End Wf.
Lemma made_wf groups ns : forallb (every_node (made groups)) ns = true -> forallb (every_node (well_formed groups)) ns = true.
Proof. apply forallb_mono. intros n. apply weaken_node; auto. Qed.
Lemma made_named groups ns : forallb (every_node (made groups)) ns = true -> forallb (every_node named) ns = true.
Proof. apply forallb_mono. intros n. apply weaken_node; auto. Qed.
Lemma parse_wf src decode regex_ok groups :
  (forall ps, Forall SimplePart ps -> regex_ok (regex_text regex_escape ps) = true -> groups (regex_text regex_escape ps) = length (regex_vars ps)) ->
  forall text ns errs, parse decode regex_ok src text = Ret (ns, errs) -> forallb (every_node (well_formed groups)) ns = true.
Proof. intros G text ns errs H. apply made_wf. eapply parse_made; eassumption. Qed.
