(** Proofs for C16: the printed form of a type is tokenised and parsed back to it. *)
From Verif Require Import Base BaseFacts M_Text M_Token M_Tokenizer S_Front P_Tokenizer M_Types M_Diag M_Queue M_Value S_Types P_Types.
From Coq Require Import Lia.

(** A type is a base type followed by suffixes. *)
Inductive group := GList | GDict | GOpt.
Definition gwrap (t : ty) (g : group) : ty :=
  match g with GList => TList t | GDict => TDict t | GOpt => TOptional t end.
Definition gtext (g : group) : str := match g with GList => lit " list" | GDict => lit " dict" | GOpt => lit "?" end.
Definition gtoks (g : group) : list (token_kind * str) :=
  match g with
  | GList => [(Whitespace, lit " "); (Name, lit "list")]
  | GDict => [(Whitespace, lit " "); (Name, lit "dict")]
  | GOpt => [(QuestionMark, lit "?")]
  end.
Fixpoint gbase (t : ty) : ty := match t with TList t | TDict t | TOptional t => gbase t | t => t end.
Fixpoint groups (t : ty) : list group :=
  match t with TList t => groups t ++ [GList] | TDict t => groups t ++ [GDict] | TOptional t => groups t ++ [GOpt] | _ => [] end.
Definition gstring (gs : list group) : str := List.concat (List.map gtext gs).
Definition base_word (t : ty) : str := t_display (gbase t).

Lemma groups_wrap t : fold_left gwrap (groups t) (gbase t) = t.
Proof. induction t; try reflexivity; cbn; rewrite fold_left_app, IHt; reflexivity. Qed.
Lemma gstring_snoc gs g : gstring (gs ++ [g]) = gstring gs ++ gtext g.
Proof. unfold gstring. rewrite map_app, concat_app. cbn. now rewrite app_nil_r. Qed.
Lemma display_groups t : t_display t = base_word t ++ gstring (groups t).
Proof.
  unfold base_word. induction t; try reflexivity; cbn [t_display gbase groups]; rewrite IHt, gstring_snoc, app_assoc; reflexivity.
Qed.

Definition kt (t : token) : token_kind * str := (tk_kind t, tk_text t).

Lemma lex_fwd fuel text rest cur dir k :
  text <> [] -> next_token (text ++ rest) = Ret (blen text, k, None) -> set_quote_dir k dir = k ->
  lex (S fuel) (text ++ rest) cur dir =
  obind (lex fuel rest (cur + blen text) (next_quote_dir k)) (fun '(toks, errs) =>
    Ret ({| tk_kind := k; tk_text := text; tk_start := cur; tk_end := cur + blen text |} :: toks, errs)).
Proof.
  intros Ne Nt Sk. destruct text as [|c text]; [congruence|]. cbn [app lex]. cbn [app] in Nt. rewrite Nt. cbn [obind].
  assert (L : 1 <= blen (c :: text)) by (cbn [blen]; pose proof (utf8_len_pos c); lia).
  destruct (blen (c :: text)) as [|n] eqn:E; [lia|]. rewrite <- E, Sk.
  change (c :: text ++ rest) with ((c :: text) ++ rest).
  assert (Sp : split_bytes ((c :: text) ++ rest) (blen (c :: text)) = Some (c :: text, rest)) by (apply split_bytes_spec; auto).
  rewrite Sp. destruct (lex fuel rest _ _) as [[toks errs]| |]; reflexivity.
Qed.

Definition not_ident (s : str) : Prop := forall c t, s = c :: t -> is_ident_cont c = false.
Lemma gstring_not_ident gs : not_ident (gstring gs).
Proof. intros c t E. destruct gs as [|[] gs]; cbn in E; try discriminate; injection E as <- _; reflexivity. Qed.
Lemma scan_word w rest : forallb is_ident_cont w = true -> not_ident rest -> scan_while is_ident_cont (w ++ rest) = blen w.
Proof. intros F N. unfold scan_while. destruct (take_while_app_stop _ w rest F N) as [E _]. now rewrite E. Qed.

Lemma next_word w rest : w <> [] -> next_is is_ident_start w = true -> forallb is_ident_cont (List.tl w) = true -> not_ident rest ->
  ident_kind w = Name -> next_token (w ++ rest) = Ret (blen w, Name, None).
Proof.
  intros Ne St Co N K. destruct w as [|c w]; [congruence|]. cbn [next_is List.tl] in *. cbn [app].
  assert (A : is_ascii c = true) by now apply ident_start_ascii.
  unfold next_token.
  destruct (c =? c_of "#")%N eqn:E1; [apply N.eqb_eq in E1; subst; discriminate|].
  destruct (is_ascii_whitespace c) eqn:E2.
  { exfalso. clear - E2 St. unfold is_ascii_whitespace in E2. repeat (apply orb_true_iff in E2; destruct E2 as [E2|E2]); apply N.eqb_eq in E2; subst; discriminate. }
  rewrite St. rewrite scan_word by assumption.
  assert (Sp : split_bytes (c :: w ++ rest) (1 + blen w) = Some (c :: w, rest)).
  { apply split_bytes_spec. split; [reflexivity|]. cbn [blen]. now rewrite utf8_len_ascii. }
  unfold prefix_str. rewrite Sp, K. cbn [blen]. now rewrite utf8_len_ascii.
Qed.

Lemma lex_groups gs : forall fuel cur dir, length (gstring gs) <= fuel ->
  exists toks, lex fuel (gstring gs) cur dir = Ret (toks, []) /\ List.map kt toks = List.concat (List.map gtoks gs).
Proof.
  induction gs as [|g gs IH]; intros fuel cur dir L.
  - exists []. destruct fuel; split; reflexivity.
  - change (gstring (g :: gs)) with (gtext g ++ gstring gs) in *. rewrite app_length in L.
    assert (W : forall w, gtext g = lit " " ++ w -> w = lit "list" \/ w = lit "dict" ->
      gtoks g = [(Whitespace, lit " "); (Name, w)] ->
      exists toks, lex fuel (gtext g ++ gstring gs) cur dir = Ret (toks, []) /\
        List.map kt toks = List.concat (List.map gtoks (g :: gs))).
    { intros w Eg Ew Et. rewrite Eg, <- app_assoc. rewrite Eg in L. cbn [lit app length] in L.
      destruct fuel as [|[|fuel]]; [cbn in L; lia|destruct Ew; subst w; cbn in L; lia|].
      rewrite (lex_fwd _ _ _ _ _ Whitespace); [|discriminate| |reflexivity].
      2:{ destruct Ew as [-> | ->]; reflexivity. }
      rewrite (lex_fwd _ _ _ _ _ Name); [|destruct Ew as [-> | ->]; discriminate| |reflexivity].
      2:{ apply next_word; try (destruct Ew as [-> | ->]; first [discriminate|reflexivity]). apply gstring_not_ident. }
      edestruct (IH fuel) as (toks & E & M); [|rewrite E; cbn [obind]; eexists; split; [reflexivity|]].
      { destruct Ew; subst w; cbn in L; lia. }
      cbn [List.map List.concat]. rewrite Et, M. reflexivity. }
    destruct g.
    + apply (W (lit "list")); auto.
    + apply (W (lit "dict")); auto.
    + destruct fuel as [|fuel]; [cbn in L; lia|].
      rewrite (lex_fwd _ _ _ _ _ QuestionMark); [|discriminate| |reflexivity].
      2:{ destruct gs as [|[] gs]; reflexivity. }
      destruct (IH fuel (cur + blen (gtext GOpt)) (next_quote_dir QuestionMark)) as (toks & E & M); [cbn in L; lia|].
      rewrite E. cbn [obind]. eexists. split; [reflexivity|]. cbn [List.map List.concat]. rewrite M. reflexivity.
Qed.

Lemma gbase_cases t : In (gbase t) [TUnit; TAny; THtml; TBlock; TInline; TBool; TInt; TStr; TFunction; TRegex].
Proof. induction t; cbn in *; tauto. Qed.

Lemma push_true l : Forall (fun t => tk_kind t <> Comment) l -> forall acc,
  fold_left (fun acc t => push_token true t acc) l acc = fold_left (fun acc t => push_token false t acc) l acc.
Proof.
  induction 1 as [|t l H F IH]; intros acc; [reflexivity|]. cbn [fold_left]. rewrite IH. f_equal.
  unfold push_token, kind_eqb. destruct (kind_eq_dec (tk_kind t) Comment); [congruence|]. reflexivity.
Qed.

Lemma tokenize_display t : exists toks, tokenize (t_display t) true = Ret (toks, []) /\
  List.map kt toks = (Name, base_word t) :: List.concat (List.map gtoks (groups t)).
Proof.
  rewrite display_groups.
  assert (B : base_word t <> [] /\ next_token (base_word t ++ gstring (groups t)) = Ret (blen (base_word t), Name, None)).
  { pose proof (gbase_cases t) as C. unfold base_word. cbn in C.
    repeat destruct C as [<-|C]; try contradiction; (split; [discriminate|]);
      (apply next_word; [discriminate|reflexivity|reflexivity|apply gstring_not_ident|reflexivity]). }
  destruct B as [Ne Nt].
  destruct (length (base_word t)) as [|n] eqn:Lb; [destruct (base_word t); [congruence|discriminate]|].
  destruct (lex_groups (groups t) (n + length (gstring (groups t))) (0 + blen (base_word t)) (next_quote_dir Name)) as (toks & E & M);
    [lia|].
  assert (Lx : lex (length (base_word t ++ gstring (groups t))) (base_word t ++ gstring (groups t)) 0 QLeft =
    Ret (Token Name (base_word t) 0 (0 + blen (base_word t)) :: toks, [])).
  { rewrite app_length, Lb. cbn [Nat.add]. rewrite (lex_fwd _ _ _ _ _ Name) by (auto; reflexivity). rewrite E. reflexivity. }
  eexists. split.
  - rewrite tokenize_lex, Lx. cbn [obind]. destruct (lex_no_adjacent _ _ _ _ _ _ Lx) as [NA _].
    rewrite push_true, push_all, app_nil_r, rev_involutive; [reflexivity|exact NA|].
    constructor; [discriminate|]. apply Forall_forall. intros tk Itk C.
    assert (I : In (kt tk) (List.concat (List.map gtoks (groups t)))) by (rewrite <- M; now apply in_map).
    apply in_concat in I. destruct I as (l & Il & Ik). apply in_map_iff in Il. destruct Il as (g & <- & _).
    unfold kt in Ik. rewrite C in Ik. destruct g; cbn in Ik; intuition congruence.
  - cbn [List.map]. rewrite M. reflexivity.
Qed.

(** Suffixes that keep a type normal. *)
Fixpoint GroupsOk (t : ty) (gs : list group) : Prop :=
  match gs with
  | [] => True
  | g :: gs => (g = GOpt -> unit_is_assignable t = false) /\ GroupsOk (gwrap t g) gs
  end.
Lemma GroupsOk_app gs gs' : forall t, GroupsOk t (gs ++ gs') <-> GroupsOk t gs /\ GroupsOk (fold_left gwrap gs t) gs'.
Proof. induction gs as [|g gs IH]; intros t; cbn; [tauto|]. rewrite IH. tauto. Qed.
Lemma normal_groups t : NormalTy t -> GroupsOk (gbase t) (groups t).
Proof.
  induction 1 as [t I|t N IH|t N IH|t N IH A].
  - cbn in I. repeat destruct I as [<-|I]; try contradiction; exact Logic.I.
  - cbn. apply GroupsOk_app. split; [assumption|]. cbn. split; [discriminate|exact Logic.I].
  - cbn. apply GroupsOk_app. split; [assumption|]. cbn. split; [discriminate|exact Logic.I].
  - cbn. apply GroupsOk_app. split; [assumption|]. cbn. rewrite groups_wrap. split; [|exact Logic.I].
    intros _. destruct (unit_is_assignable t) eqn:E; [|reflexivity]. apply unit_assignable_spec in E. tauto.
Qed.

Lemma skip_ws_yes t l ds : kind_is_whitespace (tk_kind t) = true -> skip_whitespace (PState (t :: l) ds) = POk tt (PState l ds).
Proof. intros H. unfold skip_whitespace, poll_if, peek, poll, pbind, tok_is_whitespace. cbn [ps_tokens hd_error ps_diags]. rewrite H. reflexivity. Qed.
Lemma skip_ws_no t l ds : kind_is_whitespace (tk_kind t) = false -> skip_whitespace (PState (t :: l) ds) = POk tt (PState (t :: l) ds).
Proof. intros H. unfold skip_whitespace, poll_if, peek, poll, pbind, tok_is_whitespace. cbn [ps_tokens hd_error ps_diags]. rewrite H. reflexivity. Qed.
Lemma poll_if_yes p t l ds : p t = true -> poll_if p (PState (t :: l) ds) = POk (Some t) (PState l ds).
Proof. intros H. unfold poll_if, peek, poll, pbind. cbn [ps_tokens hd_error ps_diags]. rewrite H. reflexivity. Qed.
Lemma parse_groups_ok gs : forall t toks fuel ds, GroupsOk t gs -> List.map kt toks = List.concat (List.map gtoks gs) ->
  length toks < fuel -> parse_groups fuel t (PState toks ds) = POk (fold_left gwrap gs t) (PState [] ds).
Proof.
  induction gs as [|g gs IH]; intros t toks fuel ds Ok M L; (destruct fuel as [|fuel]; [lia|]).
  - destruct toks; [reflexivity|discriminate].
  - cbn [List.map List.concat] in M. destruct Ok as [Og Ok].
    destruct g; cbn [gtoks app] in M.
    1,2: destruct toks as [|t1 [|t2 toks]]; try discriminate M; cbn [List.map] in M; injection M as K1 X1 K2 X2 M;
      cbn [length] in L; cbn [fold_left gwrap]; rewrite <- (IH _ toks fuel ds) by (auto; lia);
      cbn [parse_groups]; unfold pbind; rewrite skip_ws_yes by (rewrite K1; reflexivity);
      rewrite poll_if_yes by (unfold is_group_tok; rewrite K2; reflexivity); unfold group_type; rewrite X2; reflexivity.
    destruct toks as [|t1 toks]; try discriminate M; cbn [List.map] in M; injection M as K1 X1 M;
      cbn [length] in L; cbn [fold_left gwrap]; rewrite <- (IH _ toks fuel ds) by (auto; lia);
      cbn [parse_groups]; unfold pbind; rewrite skip_ws_no by (rewrite K1; reflexivity);
      rewrite poll_if_yes by (unfold is_group_tok; rewrite K1; reflexivity); unfold group_type; rewrite X1, (Og eq_refl); reflexivity.
Qed.

Lemma base_type_word t : base_type (base_word t) = Some (gbase t).
Proof. unfold base_word. pose proof (gbase_cases t) as C. cbn in C. repeat destruct C as [<-|C]; try contradiction; reflexivity. Qed.

Lemma type_text_roundtrip t : NormalTy t ->
  exists toks, tokenize (t_display t) true = Ret (toks, []) /\ parse_type (PState toks []) = POk t (PState [] []).
Proof.
  intros N. destruct (tokenize_display t) as (toks & E & M). exists toks. split; [exact E|].
  destruct toks as [|t1 toks]; [discriminate|]. cbn [List.map] in M. injection M as K1 X1 M.
  pose proof (parse_groups_ok (groups t) (gbase t) toks (S (length toks)) [] (normal_groups t N) M (le_n _)) as G.
  rewrite groups_wrap in G. rewrite <- G. unfold parse_type, pbind. rewrite skip_ws_no by (rewrite K1; reflexivity).
  unfold expect_poll_kind, expect_poll, peek, poll, pbind. cbn [ps_tokens hd_error ps_diags]. rewrite K1.
  change (kind_eqb Name Name) with true. cbn [negb ps_tokens ps_diags pret]. rewrite X1, base_type_word. reflexivity.
Qed.

(** Every parsed type is normal. *)
Lemma NT_TAny : NormalTy TAny. Proof. constructor; cbn; tauto. Qed.
Lemma base_type_normal s t : base_type s = Some t -> NormalTy t.
Proof.
  unfold base_type. intros H. repeat (destruct (str_eqb s _); [injection H as <-; (constructor; cbn; tauto) || (constructor; apply NT_TAny)|]).
  discriminate.
Qed.
Lemma group_type_normal t tok s t' s' : NormalTy t -> group_type t tok s = POk t' s' -> NormalTy t'.
Proof.
  intros N. unfold group_type. destruct (str_eqb _ _); [intros [= <- _]; now constructor|].
  destruct (str_eqb _ _); [intros [= <- _]; now constructor|].
  destruct (str_eqb _ _).
  - destruct (unit_is_assignable t) eqn:E.
    + intros [= <- _]. assumption.
    + intros [= <- _]. apply NT_option; [assumption|]. rewrite <- unit_assignable_spec. congruence.
  - intros [= <- _]. assumption.
Qed.
Lemma pbind_ok {A B} (m : PM A) (f : A -> PM B) s b s' : pbind m f s = POk b s' -> exists a s1, m s = POk a s1 /\ f a s1 = POk b s'.
Proof. unfold pbind. destruct (m s); try discriminate. eauto. Qed.
Lemma parse_groups_normal fuel : forall t s t' s', NormalTy t -> parse_groups fuel t s = POk t' s' -> NormalTy t'.
Proof.
  induction fuel as [|fuel IH]; intros t s t' s' N H; [discriminate|]. cbn [parse_groups] in H.
  apply pbind_ok in H as (? & s1 & _ & H). apply pbind_ok in H as ([tok|] & s2 & _ & H).
  - apply pbind_ok in H as (t1 & s3 & G & H). eapply IH; [|exact H]. eapply group_type_normal; eauto.
  - injection H as <- _. assumption.
Qed.
Lemma parse_type_normal s t s' : parse_type s = POk t s' -> NormalTy t.
Proof.
  unfold parse_type. intros H. apply pbind_ok in H as (? & s1 & _ & H). apply pbind_ok in H as (b & s2 & _ & H).
  apply pbind_ok in H as (t0 & s3 & B & H). eapply parse_groups_normal; [|exact H].
  destruct (base_type (tk_text b)) eqn:E.
  - injection B as <- _. eapply base_type_normal; eauto.
  - apply pbind_ok in B as (? & ? & _ & B). injection B as <- _. apply NT_TAny.
Qed.
