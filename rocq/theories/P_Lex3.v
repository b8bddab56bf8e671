(** Each token of the lexical grammar is one of the tokenizer, except at a numeric escape cut short outside ASCII. *)
From Verif Require Import Base BaseFacts M_Text M_Token M_Tokenizer S_Text S_Lex P_Tokenizer P_Lex1 P_Lex2.

Ltac consts :=
  change (c_of "#") with 35%N; change (c_of "$") with 36%N; change (c_of "@") with 64%N; change (c_of "&") with 38%N;
  change (c_of "\") with 92%N; change (c_of "`") with 96%N; change (c_of "<") with 60%N; change (c_of "-") with 45%N;
  change (c_of ";") with 59%N; change (c_of "/") with 47%N; change (c_of ">") with 62%N.
(** Follow the arms of [next_token] as far as they are decided by the characters known. *)
Ltac skip := match goal with |- (if ?b then ?x else ?y) = _ => change b with false; cbv iota end.
Ltac take := match goal with |- (if ?b then ?x else ?y) = _ => change b with true; cbv iota end.
Ltac go := repeat (first [skip | take]).
Ltac start := unfold next_token; cbv beta zeta; consts.

Lemma ident_kind_is w k : NameKind w k -> ident_kind w = k.
Proof.
  destruct 1 as [| | |w H]; try reflexivity. unfold ident_kind.
  destruct (str_eqb w (lit "True")) eqn:E1; [apply str_eqb_eq in E1; subst; exfalso; apply H; cbn; auto|].
  destruct (str_eqb w (lit "False")) eqn:E2; [apply str_eqb_eq in E2; subst; exfalso; apply H; cbn; auto|].
  destruct (str_eqb w (lit "_")) eqn:E3; [apply str_eqb_eq in E3; subst; exfalso; apply H; cbn; auto|]. reflexivity.
Qed.
Lemma keyword_kind_is w k : AtKind w k -> keyword_kind w = k.
Proof.
  destruct 1 as [| | | | |w H]; try reflexivity. unfold keyword_kind.
  destruct (str_eqb w (lit "export")) eqn:E1; [apply str_eqb_eq in E1; subst; exfalso; apply H; cbn; tauto|].
  destruct (str_eqb w (lit "fn")) eqn:E2; [apply str_eqb_eq in E2; subst; exfalso; apply H; cbn; tauto|].
  destruct (str_eqb w (lit "implicit")) eqn:E3; [apply str_eqb_eq in E3; subst; exfalso; apply H; cbn; tauto|].
  destruct (str_eqb w (lit "let")) eqn:E4; [apply str_eqb_eq in E4; subst; exfalso; apply H; cbn; tauto|].
  destruct (str_eqb w (lit "match")) eqn:E5; [apply str_eqb_eq in E5; subst; exfalso; apply H; cbn; tauto|]. reflexivity.
Qed.
Lemma blen_one c s : (c < 128)%N -> blen (c :: s) = 1 + blen s.
Proof. intros H. cbn [blen]. rewrite utf8_len_ascii; [reflexivity|]. unfold is_ascii. lia. Qed.

Lemma done_hash line gap rest : ~ In 10%N line -> Forall White gap -> Not White rest -> Not (fun c => c <> 10%N) (gap ++ rest) ->
  next_token (35%N :: line ++ gap ++ rest) = Ret (if is_paragraph_break gap then 1 + blen line else 1 + blen line + blen gap, Comment, None).
Proof.
  intros L W N R. start. take.
  set (f := fun c => negb (c =? 10)%N). assert (F : forall c, f c = true <-> c <> 10%N) by (intros c; unfold f; lia).
  assert (L' : Forall (fun c => c <> 10%N) line) by (rewrite Forall_forall; intros x Hx ->; contradiction).
  destruct (run_is f _ F line (gap ++ rest) L' R) as (_ & D & Sc). rewrite D, Sc.
  destruct (run_is _ _ white_spec gap rest W N) as (T & _ & Sw). now rewrite T, Sw.
Qed.
Lemma done_white w rest : w <> [] -> Forall White w -> Not White rest ->
  next_token (w ++ rest) = Ret (blen w, (if is_paragraph_break w then Newline else Whitespace), None).
Proof.
  intros N W R. destruct w as [|c w]; [now destruct N|]. inversion W as [|? ? Hc Hw]; subst.
  cbn [app]. start. destruct (run_is _ _ white_spec w rest Hw R) as (_ & _ & Sw). rewrite Sw.
  replace (c =? 35)%N with false by (unfold White in Hc; lia). rewrite (proj2 (white_spec c) Hc).
  rewrite blen_one by (unfold White in Hc; lia).
  change (c :: w ++ rest) with ((c :: w) ++ rest). rewrite prefix_app; [reflexivity|]. rewrite blen_one by (unfold White in Hc; lia). reflexivity.
Qed.
Lemma word_run w rest : Identifier w -> Not LetterOrDigit rest -> exists c t, w = c :: t /\ is_ident_start c = true /\ (c < 128)%N /\
  scan_while is_ident_cont (t ++ rest) = blen t /\ scan_while is_ident_cont (w ++ rest) = blen w /\ drop_while is_ident_cont (t ++ rest) = rest.
Proof.
  intros (c & t & -> & Hc & Ht) N. exists c, t. split; [reflexivity|]. split; [now apply letter_spec|]. split; [unfold Letter in Hc; lia|].
  destruct (run_is _ _ cont_spec t rest Ht N) as (_ & D & S1).
  destruct (run_is _ _ cont_spec (c :: t) rest) as (_ & _ & S2); auto. constructor; [now left|exact Ht].
Qed.
Lemma start_not x c : is_ident_start c = true -> is_ident_start x = false -> (c =? x)%N = false.
Proof. intros H1 H2. apply N.eqb_neq. congruence. Qed.
Lemma done_name w k rest : Identifier w -> Not LetterOrDigit rest -> NameKind w k -> next_token (w ++ rest) = Ret (blen w, k, None).
Proof.
  intros I N K. destruct (word_run w rest I N) as (c & t & E & Hc & A & S1 & _ & _). rewrite <- (ident_kind_is _ _ K). rewrite E.
  cbn [app]. start. rewrite S1. rewrite (start_not 35 c Hc eq_refl).
  replace (is_ascii_whitespace c) with false.
  2: { symmetry. apply (spec_false _ _ white_spec). apply letter_spec in Hc. unfold Letter in Hc. unfold White. lia. }
  rewrite Hc. rewrite (blen_one c t A). change (c :: t ++ rest) with ((c :: t) ++ rest). rewrite prefix_app; [reflexivity|].
  now rewrite (blen_one c t A).
Qed.
Lemma next_word c t rest : is_ident_start c = true -> next_is is_ident_start ((c :: t) ++ rest) = true.
Proof. intros H. exact H. Qed.
Lemma done_var w rest : Identifier w -> Not LetterOrDigit rest -> next_token (36%N :: w ++ rest) = Ret (1 + blen w, VarName, None).
Proof.
  intros I N. destruct (word_run w rest I N) as (c & t & E & Hc & A & _ & S2 & _). start. rewrite S2, E, (next_word c t rest Hc). go. reflexivity.
Qed.
Lemma done_at w k rest : Identifier w -> Not LetterOrDigit rest -> AtKind w k -> next_token (64%N :: w ++ rest) = Ret (1 + blen w, k, None).
Proof.
  intros I N K. destruct (word_run w rest I N) as (c & t & E & Hc & A & _ & S2 & _). start.
  rewrite S2, (prefix_app w rest _ eq_refl), (keyword_kind_is w k K), E, (next_word c t rest Hc). go. reflexivity.
Qed.
Lemma done_number w rest : w <> [] -> Forall Digit w -> Not Digit rest -> next_token (w ++ rest) = Ret (blen w, Number, None).
Proof.
  intros N W R. destruct w as [|c w]; [now destruct N|]. inversion W as [|? ? Hc Hw]; subst. unfold Digit in Hc.
  cbn [app]. start. destruct (run_is _ _ digit_spec w rest Hw R) as (_ & _ & Sw). rewrite Sw.
  replace (c =? 35)%N with false by lia.
  replace (is_ascii_whitespace c) with false by (symmetry; apply (spec_false _ _ white_spec); unfold White; lia).
  replace (is_ident_start c) with false by (symmetry; apply (spec_false _ _ letter_spec); unfold Letter; lia).
  rewrite (proj2 (digit_spec c) Hc), blen_one by lia. reflexivity.
Qed.
Lemma done_negative w rest : w <> [] -> Forall Digit w -> Not Digit rest -> next_token (45%N :: w ++ rest) = Ret (1 + blen w, Number, None).
Proof.
  intros N W R. destruct w as [|c w]; [now destruct N|]. inversion W as [|? ? Hc Hw]; subst.
  start. cbn [app List.tl next_is]. destruct (run_is _ _ digit_spec w rest Hw R) as (_ & _ & Sw). rewrite Sw.
  rewrite (proj2 (digit_spec c) Hc). do 9 skip.
  replace ((45 =? 45)%N && starts_with (lit "->") (45%N :: c :: w ++ rest)) with false.
  2: { symmetry. apply starts_spec. intros t E. injection E as E _. subst c. unfold Digit in Hc. lia. }
  take. rewrite (blen_one c w) by (unfold Digit in Hc; lia). reflexivity.
Qed.
Lemma entity_start_not c : Letter c /\ c <> 95%N \/ c = 35%N -> (c < 128)%N.
Proof. unfold Letter. lia. Qed.
Lemma done_entity c w rest : Letter c /\ c <> 95%N \/ c = 35%N -> Forall (fun c => ~ White c /\ c <> 59%N) w ->
  next_token (38%N :: c :: w ++ 59%N :: rest) = Ret (3 + blen w, Entity, None).
Proof.
  intros C W. start. cbn [List.tl next_is]. change (fun c => negb (is_ascii_whitespace c) && negb (c =? 59)%N) with entity_char.
  rewrite (proj2 (entity_start_spec c) C).
  destruct (run_is _ _ entity_char_spec w (59%N :: rest) W) as (_ & D & Sw); [intros x y [= <- _] [_ H]; now apply H|].
  rewrite D, Sw. go. do 3 f_equal. lia.
Qed.
Lemma done_entity_open c w rest : Letter c /\ c <> 95%N \/ c = 35%N -> Forall (fun c => ~ White c /\ c <> 59%N) w -> Not (fun c => ~ White c) rest ->
  next_token (38%N :: c :: w ++ rest) = Ret (2 + blen w, Entity, Some TokenEntityMissingSemicolon).
Proof.
  intros C W R. start. cbn [List.tl next_is]. change (fun c => negb (is_ascii_whitespace c) && negb (c =? 59)%N) with entity_char.
  rewrite (proj2 (entity_start_spec c) C).
  destruct (run_is _ _ entity_char_spec w rest W) as (_ & D & Sw); [intros x y E [H _]; now apply (R x y E)|].
  rewrite D, Sw. replace (next_is (N.eqb 59) rest) with false.
  2: { symmetry. apply (next_spec _ _ (eqb_spec 59)). intros x y E <-. apply (R 59%N y E). unfold White. lia. }
  go. reflexivity.
Qed.
Lemma done_ampersand rest : Not (fun c => Letter c /\ c <> 95%N \/ c = 35%N) rest -> next_token (38%N :: rest) = Ret (1, Ampersand, None).
Proof.
  intros R. start. rewrite (proj2 (proj1 (next_spec _ _ entity_start_spec rest)) R). go. reflexivity.
Qed.
Lemma done_escape c rest : c <> 10%N -> ~ In c (map fst numeric_escapes) -> next_token (92%N :: c :: rest) = Ret (1 + utf8_len c, Escape, None).
Proof.
  intros N I. start. change (c_of "x") with 120%N. change (c_of "u") with 117%N. change (c_of "U") with 85%N.
  go. cbn [map fst numeric_escapes In] in I.
  replace (c =? 10)%N with false by lia. replace ((c =? 120)%N || (c =? 117)%N || (c =? 85)%N) with false by lia. reflexivity.
Qed.
Lemma numeric_cases c n : In (c, n) numeric_escapes -> (c < 128)%N /\ (c =? 10)%N = false /\ (c =? 120)%N || (c =? 117)%N || (c =? 85)%N = true /\
  (if (c =? 120)%N then 4 else if (c =? 117)%N then 6 else 10) = 2 + n.
Proof. unfold numeric_escapes. cbn [In]. intros [[= <- <-]|[[= <- <-]|[[= <- <-]|[]]]]; repeat split. Qed.
Lemma done_escape_number c n digits rest : In (c, n) numeric_escapes -> length digits = n -> Forall HexDigitChar digits ->
  next_token (92%N :: c :: digits ++ rest) = Ret (2 + blen digits, Escape, None).
Proof.
  intros I L H. destruct (numeric_cases c n I) as (A & C1 & C2 & C3). start. go.
  change (c_of "x") with 120%N. change (c_of "u") with 117%N. change (c_of "U") with 85%N. rewrite C1, C2, C3.
  assert (B : blen digits = n).
  { rewrite <- L. apply blen_ascii. rewrite forallb_forall. rewrite Forall_forall in H. intros x Hx. specialize (H x Hx).
    unfold is_ascii. unfold HexDigitChar, Digit in H. lia. }
  rewrite !blen_one, blen_app, B by (try exact A; lia).
  replace (2 + n <=? 1 + (1 + (n + blen rest))) with true by (symmetry; apply Nat.leb_le; lia).
  replace (2 + n - 2) with n by lia. rewrite <- B, split_bytes_app. rewrite (proj2 (all_spec _ _ hex_spec digits) H). reflexivity.
Qed.
Lemma done_escape_short c n rest : In (c, n) numeric_escapes -> ~ (n <= length rest /\ Forall HexDigitChar (firstn n rest)) ->
  (n <= blen rest -> split_bytes rest n <> None) -> next_token (92%N :: c :: rest) = Ret (2, Escape, Some TokenInvalidEscape).
Proof.
  intros I H As. destruct (numeric_cases c n I) as (A & C1 & C2 & C3). start. go.
  change (c_of "x") with 120%N. change (c_of "u") with 117%N. change (c_of "U") with 85%N. rewrite C1, C2, C3.
  rewrite !blen_one by (try exact A; lia). replace (2 + n - 2) with n by lia.
  destruct (Nat.leb_spec (2 + n) (1 + (1 + blen rest))) as [Le|Lt]; [|reflexivity].
  destruct (split_bytes rest n) as [[a b]|] eqn:S; [|exfalso; apply As; [lia|reflexivity]].
  destruct (forallb is_ascii_hexdigit a) eqn:F; [|reflexivity]. exfalso. apply H. apply split_bytes_spec in S as [-> Ba].
  assert (La : length a = n).
  { rewrite <- Ba. symmetry. apply blen_ascii. rewrite forallb_forall in *. intros x Hx. specialize (F x Hx).
    unfold is_ascii_hexdigit, is_ascii_digit, in_range, is_ascii in *. lia. }
  split; [rewrite app_length; lia|]. rewrite <- La, firstn_app, firstn_all, Nat.sub_diag. cbn [firstn]. rewrite app_nil_r. now apply (all_spec _ _ hex_spec) in F.
Qed.
Lemma ticks_starts n w : Not (eq 96%N) w -> starts_with (lit "```") (repeat 96%N n ++ w) = (3 <=? n).
Proof.
  intros N. destruct (starts_spec (lit "```") (repeat 96%N n ++ w)) as [St Sf]. change (lit "```") with [96;96;96]%N in *.
  destruct (Nat.leb_spec 3 n) as [Le|Lt].
  - apply St. destruct n as [|[|[|n]]]; try lia. cbn [repeat app]. now eexists.
  - apply Sf. intros u E. destruct n as [|[|[|n]]]; [| | |lia]; cbn [repeat app] in E.
    + now apply (N 96%N _ E).
    + injection E as E. now apply (N 96%N _ E).
    + injection E as E. now apply (N 96%N _ E).
Qed.
Lemma ticks_head n w : Not (eq 96%N) w -> take_while (N.eqb 96) (repeat 96%N n ++ w) = repeat 96%N n /\
  drop_while (N.eqb 96) (repeat 96%N n ++ w) = w /\ scan_while (N.eqb 96) (repeat 96%N n ++ w) = n.
Proof.
  intros N. destruct (run_is _ _ (eqb_spec 96) (repeat 96%N n) w) as (T & D & S); auto.
  - apply Forall_forall. intros x Hx. apply repeat_spec in Hx. now symmetry.
  - now rewrite S, blen_ticks.
Qed.
Lemma verbatim_arm n w : Not (eq 96%N) w -> next_token (repeat 96%N (S n) ++ w) =
  match find_sub (repeat 96%N (S n)) w with
  | Some (content, from_close) =>
    let close_len := S n + scan_while (N.eqb 96) (skipn (S n) from_close) in
    let len := S n + blen content + close_len in
    let kind := Verbatim (if 3 <=? S n then VMultiline else VSimple) in
    if S n <? close_len then Ret (len, kind, Some TokenVerbatimTooManyBackticks)
    else if (S n <? 3) && existsb (N.eqb 10) content then Ret (len, kind, Some TokenVerbatimMultilineNotEnoughBackticks)
    else Ret (len, kind, None)
  | None => Ret (blen (repeat 96%N (S n) ++ w), Verbatim (if 3 <=? S n then VMultiline else VSimple), Some TokenVerbatimEOF)
  end.
Proof.
  intros N. destruct (ticks_head (S n) w N) as (T & D & _). destruct (ticks_head n w N) as (_ & _ & S1).
  rewrite <- (ticks_starts (S n) w N).
  cbn [repeat app] in *. start. do 7 skip. take. rewrite T, D, S1. reflexivity.
Qed.
Lemma close_run n w m rest : 1 <= n -> n <= m -> Not (eq 96%N) rest -> FirstAfter (repeat 96%N n) w ->
  find_sub (repeat 96%N n) (w ++ repeat 96%N m ++ rest) = Some (w, repeat 96%N m ++ rest) /\
  n + scan_while (N.eqb 96) (skipn n (repeat 96%N m ++ rest)) = m.
Proof.
  intros N1 L R F. replace m with (n + (m - n)) by lia. rewrite repeat_app, <- app_assoc. split; [now apply find_is|].
  rewrite skipn_app, repeat_length, Nat.sub_diag, skipn_O. rewrite skipn_all2 by (rewrite repeat_length; lia). cbn [app].
  destruct (ticks_head (m - n) rest R) as (_ & _ & ->). reflexivity.
Qed.
Lemma not_app (P : N -> Prop) w r : w <> [] -> Not P w -> Not P (w ++ r).
Proof. intros N H c t E. destruct w as [|x w]; [now destruct N|]. cbn [app] in E. injection E as -> _. now apply (H c w). Qed.
Lemma done_verbatim n m w rest : 1 <= n -> n <= m -> w <> [] -> Not (eq 96%N) w -> FirstAfter (repeat 96%N n) w -> Not (eq 96%N) rest ->
  next_token (repeat 96%N n ++ w ++ repeat 96%N m ++ rest) =
  Ret (n + blen w + m, Verbatim (if 3 <=? n then VMultiline else VSimple),
       if n <? m then Some TokenVerbatimTooManyBackticks
       else if (n <? 3) && existsb (N.eqb 10) w then Some TokenVerbatimMultilineNotEnoughBackticks else None).
Proof.
  intros N1 L Nw N F R. destruct n as [|n]; [lia|]. rewrite verbatim_arm by now apply not_app.
  destruct (close_run (S n) w m rest N1 L R F) as [-> C]. cbv beta zeta iota. rewrite C.
  destruct (S n <? m); [reflexivity|]. destruct (_ && _); reflexivity.
Qed.
Lemma existsb_nl w : existsb (N.eqb 10) w = true <-> In 10%N w.
Proof. rewrite existsb_exists. split; [intros (x & H & E); apply N.eqb_eq in E; now subst|]. intros H. exists 10%N. now split. Qed.

Lemma done_close w rest : Identifier w -> next_token (lit "</" ++ w ++ lit ">" ++ rest) = Ret (3 + blen w, CloseTag, None).
Proof.
  intros I. destruct (word_run w (lit ">" ++ rest) I) as (c & t & E & Hc & A & S1 & _ & D).
  { intros x y [= <- _]. rewrite <- cont_spec. discriminate. }
  rewrite E. change (lit "</" ++ (c :: t) ++ lit ">" ++ rest) with (60%N :: 47%N :: c :: t ++ lit ">" ++ rest).
  start. do 8 skip. take. skip. take. cbn [List.tl next_is]. rewrite Hc, D, S1. take. now rewrite (blen_one c t A).
Qed.
Lemma done_close_name w rest : Identifier w -> Not LetterOrDigit rest -> Not (eq 62%N) rest ->
  next_token (lit "</" ++ w ++ rest) = Ret (2 + blen w, RawText, Some TagCloseMalformed).
Proof.
  intros I N R. destruct (word_run w rest I N) as (c & t & E & Hc & A & S1 & _ & D).
  rewrite E. change (lit "</" ++ (c :: t) ++ rest) with (60%N :: 47%N :: c :: t ++ rest).
  start. do 8 skip. take. skip. take. cbn [List.tl next_is]. rewrite Hc, D, S1.
  rewrite (proj2 (proj1 (next_spec _ _ (eqb_spec 62) rest)) R). now rewrite (blen_one c t A).
Qed.
Lemma done_close_bad rest : Not Letter rest -> Not (eq 62%N) rest -> next_token (lit "</" ++ rest) = Ret (2, RawText, Some TagCloseMalformed).
Proof.
  intros N R. change (lit "</" ++ rest) with (60%N :: 47%N :: rest). start. do 8 skip. take. skip. take. cbn [List.tl].
  rewrite (proj2 (proj1 (next_spec _ _ letter_spec rest)) N).
  replace (starts_with (lit "</>") (60%N :: 47%N :: rest)) with false; [reflexivity|].
  symmetry. apply starts_spec. intros t [= ->]. now apply (R 62%N t).
Qed.
Lemma done_comment body rest : FirstAfter (lit "-->") body -> next_token (lit "<!--" ++ body ++ lit "-->" ++ rest) = Ret (blen body + 7, Comment, None).
Proof.
  intros F. change (lit "<!--" ++ body ++ lit "-->" ++ rest) with (60%N :: (lit "!--" ++ body ++ lit "-->" ++ rest)).
  start. do 8 skip. take. take.
  change (skipn 4 (60%N :: lit "!--" ++ body ++ lit "-->" ++ rest)) with (body ++ lit "-->" ++ rest). now rewrite (find_is _ _ rest F).
Qed.
Lemma done_comment_open body : ~ Occurs (lit "-->") body -> next_token (lit "<!--" ++ body) = Ret (blen (lit "<!--" ++ body), Comment, None).
Proof.
  intros F. change (lit "<!--" ++ body) with (60%N :: (lit "!--" ++ body)).
  start. do 8 skip. take. take.
  change (skipn 4 (60%N :: lit "!--" ++ body)) with body. now rewrite (proj2 (find_none _ _) F).
Qed.
Lemma done_punctuation p no k rest : In (p, no, k) punctuation -> Forall (fun q => NotText q rest) no ->
  next_token (p ++ rest) = Ret (blen p, k, None).
Proof.
  intros I F.
  assert (St : forall q x, In q no -> starts_with (x ++ q) (x ++ rest) = false).
  { intros q x Hq. apply starts_spec. rewrite Forall_forall in F. intros t E. rewrite <- app_assoc in E. apply app_inv_head in E.
    now apply (F q Hq t). }
  unfold punctuation in I. cbn [In] in I.
  repeat (destruct I as [[= <- <- <-]|I]; [|]); [.. |destruct I];
  try (match goal with |- next_token (?x ++ rest) = _ => let v := eval vm_compute in x in change (x ++ rest) with (v ++ rest); cbn [app] end; start;
       solve [go; reflexivity]).
  - cbn [app]. start. do 8 skip. take.
    pose proof (St (lit "!--") (lit "<") (or_introl eq_refl)) as H1. change (lit "<" ++ lit "!--") with (lit "<!--") in H1.
    change (lit "<" ++ rest) with (60%N :: rest) in H1. rewrite H1.
    replace (next_is (N.eqb 47) rest) with false; [reflexivity|]. symmetry. apply (next_spec _ _ (eqb_spec 47)). intros c t -> <-.
    rewrite Forall_forall in F. now apply (F (lit "/") ltac:(right; left; reflexivity) t).
  - pose proof (St (lit "*") (lit "*") (or_introl eq_refl)) as H1. change (lit "*" ++ lit "*") with (lit "**") in H1.
    change (lit "*" ++ rest) with (42%N :: rest) in H1. cbn [app]. start. rewrite H1. go. reflexivity.
  - pose proof (St (lit ":") (lit ":") (or_introl eq_refl)) as H1. change (lit ":" ++ lit ":") with (lit "::") in H1.
    change (lit ":" ++ rest) with (58%N :: rest) in H1. cbn [app]. start. rewrite H1. go. reflexivity.
  - pose proof (St (lit "::") (lit "?") (or_introl eq_refl)) as H1. change (lit "?" ++ lit "::") with (lit "?::") in H1.
    change (lit "?" ++ rest) with (63%N :: rest) in H1. cbn [app]. start. rewrite H1. go. reflexivity.
  - pose proof (St (lit "..") (lit ".") (or_introl eq_refl)) as H1. change (lit "." ++ lit "..") with (lit "...") in H1.
    change (lit "." ++ rest) with (46%N :: rest) in H1. cbn [app]. start. rewrite H1. go. reflexivity.
Qed.
