(** The tokenizer and the lexical grammar (C69). *)
From Verif Require Import Base BaseFacts M_Text M_Token M_Tokenizer S_Text S_Lex P_Tokenizer P_Lex1 P_Lex2 P_Lex3.

Lemma done_raw c w rest : (Raw c \/ c = 36%N /\ Not Letter (w ++ rest) \/ c = 64%N /\ Not Letter (w ++ rest) \/
      c = 45%N /\ Not Digit (w ++ rest) /\ Not (eq 62%N) (w ++ rest) \/ c = 47%N /\ Not (eq 62%N) (w ++ rest)) ->
  Forall Raw w -> Not Raw rest -> next_token (c :: w ++ rest) = Ret (utf8_len c + blen w, RawText, None).
Proof.
  intros H W R. destruct (run_is _ _ raw_spec w rest W R) as (_ & _ & Sw). set (t := w ++ rest) in *.
  destruct H as [(Ns & Nl & Nw)|[[-> H]|[[-> H]|[[-> [H H2]]|[-> H]]]]].
  - start. rewrite Sw. rewrite <- cont_spec in Nl. rewrite <- white_spec in Nw.
    change special with [40;41;91;93;123;125;60;62;46;44;45;61;58;42;33;63;47;124;35;64;36;38;92;96;39;34]%N in Ns. cbn [In] in Ns.
    unfold is_ident_cont, is_ascii_alphanumeric in Nl.
    assert (Nl' : is_ident_start c = false) by (unfold is_ident_start; lia).
    assert (Nd : is_ascii_digit c = false) by lia.
    assert (Nw' : is_ascii_whitespace c = false) by (destruct (is_ascii_whitespace c); congruence).
    change (c_of "(") with 40%N. change (c_of ")") with 41%N. change (c_of "[") with 91%N. change (c_of "]") with 93%N.
    change (c_of "{") with 123%N. change (c_of "}") with 125%N. change (c_of "|") with 124%N. change (c_of ",") with 44%N.
    change (c_of "=") with 61%N. change (c_of "!") with 33%N. change (c_of "*") with 42%N. change (c_of ":") with 58%N.
    change (c_of "?") with 63%N. change (c_of ".") with 46%N. change (c_of "'") with 39%N. change (c_of """") with 34%N.
    rewrite Nw', Nl', Nd.
    repeat match goal with |- context [(c =? ?x)%N] => replace (c =? x)%N with false by (symmetry; apply N.eqb_neq; intros E; apply Ns; rewrite E; clear; tauto) end.
    reflexivity.
  - start. rewrite Sw, (proj2 (proj1 (next_spec _ _ letter_spec t)) H). go. reflexivity.
  - start. rewrite Sw, (proj2 (proj1 (next_spec _ _ letter_spec t)) H). go. reflexivity.
  - start. rewrite Sw, (proj2 (proj1 (next_spec _ _ digit_spec t)) H).
    replace (starts_with (lit "->") (45%N :: t)) with false; [go; reflexivity|]. symmetry. apply starts_spec. intros u [= ->].
    now apply (H2 62%N u).
  - start. rewrite Sw. replace (starts_with (lit "/>") (47%N :: t)) with false; [go; reflexivity|]. symmetry. apply starts_spec.
    intros u [= ->]. now apply (H 62%N u).
Qed.

Lemma done_verbatim_open n w : 1 <= n -> Not (eq 96%N) w -> ~ Occurs (repeat 96%N n) w ->
  next_token (repeat 96%N n ++ w) = Ret (blen (repeat 96%N n ++ w), Verbatim (if 3 <=? n then VMultiline else VSimple), Some TokenVerbatimEOF).
Proof. intros N1 N F. destruct n as [|n]; [lia|]. rewrite (verbatim_arm n w N). now rewrite (proj2 (find_none _ _) F). Qed.
Definition ascii_dec (c : N) : {(c < 128)%N} + {~ (c < 128)%N}.
Proof. destruct (c <? 128)%N eqn:E; [left|right]; lia. Defined.
Lemma fin dir s text n k0 k e e0 : next_token s = Ret (n, k0, e0) -> n = blen text -> e0 = e -> set_quote_dir k0 dir = k ->
  CutEscape s \/ exists k1, next_token s = Ret (blen text, k1, e) /\ set_quote_dir k1 dir = k.
Proof. intros H -> -> <-. right. eauto. Qed.

Lemma next_token_complete dir text rest k e : Lexeme dir text rest k e ->
  CutEscape (text ++ rest) \/ exists k0, next_token (text ++ rest) = Ret (blen text, k0, e) /\ set_quote_dir k0 dir = k.
Proof.
  destruct 1 as [line gap rest L W N R B|line gap rest L W N R B|body rest F|body F|w rest W N B|w rest Nw W N B
    |w k rest I N K|w rest I N|w k rest I N K|w rest Nw W R|w rest Nw W R|c w rest C W|c w rest C W R|rest R
    |c rest N I|c n digits rest I L H|c n rest I H|rest| |n w rest N1 Nw N F R M|n w rest N1 Nw N F R M1 M2|n m w rest N1 L Nw N F R
    |n w N1 N F|w rest I|rest|w rest I N R|rest N R|p no k rest I F|rest|rest|c w rest H W R].
  - cbn [app]. rewrite <- app_assoc. eapply fin; [apply done_hash; assumption| |reflexivity|reflexivity].
    destruct (is_paragraph_break gap) eqn:P; [apply blank_spec in P; contradiction|]. rewrite blen_one, blen_app by lia. lia.
  - eapply fin; [apply (done_hash line gap rest); assumption| |reflexivity|reflexivity].
    rewrite (proj2 (blank_spec gap) B). rewrite blen_one by lia. reflexivity.
  - rewrite <- !app_assoc. eapply fin; [apply done_comment; assumption| |reflexivity|reflexivity]. rewrite !blen_app.
    change (blen (lit "<!--")) with 4. change (blen (lit "-->")) with 3. lia.
  - rewrite app_nil_r. eapply fin; [apply done_comment_open; assumption|reflexivity|reflexivity|reflexivity].
  - eapply fin; [apply done_white; try assumption|reflexivity|reflexivity|].
    + intros ->. destruct B as (a & b & c & B). destruct a; discriminate.
    + rewrite (proj2 (blank_spec w) B). reflexivity.
  - eapply fin; [apply done_white; assumption|reflexivity|reflexivity|].
    destruct (is_paragraph_break w) eqn:P; [apply blank_spec in P; contradiction|reflexivity].
  - eapply fin; [apply done_name; eassumption|reflexivity|reflexivity|]. now apply (set_name_kind w).
  - cbn [app]. eapply fin; [apply done_var; assumption|rewrite blen_one by lia; reflexivity|reflexivity|reflexivity].
  - cbn [app]. eapply fin; [apply done_at; eassumption|rewrite blen_one by lia; reflexivity|reflexivity|]. now apply (set_at_kind w).
  - eapply fin; [apply done_number; assumption|reflexivity|reflexivity|reflexivity].
  - cbn [app]. eapply fin; [apply done_negative; assumption|rewrite blen_one by lia; reflexivity|reflexivity|reflexivity].
  - cbn [app]. rewrite <- app_assoc. eapply fin; [apply done_entity; assumption| |reflexivity|reflexivity].
    rewrite !blen_one, blen_app by (try apply (entity_start_not c C); lia). change (blen [59%N]) with 1. lia.
  - cbn [app]. eapply fin; [apply done_entity_open; assumption| |reflexivity|reflexivity].
    rewrite !blen_one by (try apply (entity_start_not c C); lia). reflexivity.
  - eapply fin; [apply (done_ampersand rest); assumption|reflexivity|reflexivity|reflexivity].
  - eapply fin; [apply (done_escape c rest); assumption| |reflexivity|reflexivity]. rewrite blen_one by lia. cbn [blen]. lia.
  - eapply fin; [apply (done_escape_number c n digits rest); assumption| |reflexivity|reflexivity].
    rewrite !blen_one by (try apply (numeric_cases c n I); lia). reflexivity.
  - assert (CutEscape (92%N :: c :: rest) \/ (n <= blen rest -> split_bytes rest n <> None)) as [Cut|As].
    { destruct (le_lt_dec n (blen rest)) as [L|L]; [|right; lia]. destruct (split_bytes rest n) eqn:S; [right; discriminate|]. left. exists c, n, rest.
      do 2 (split; [auto|]). split; [exact L|]. intros a b E1 E2. assert (split_bytes rest n = Some (a, b)) as Z by now apply split_bytes_spec. congruence. }
    + now left.
    + eapply fin; [apply (done_escape_short c n rest); assumption| |reflexivity|reflexivity].
      rewrite !blen_one by (try apply (numeric_cases c n I); lia). reflexivity.
  - eapply fin; reflexivity.
  - eapply fin; reflexivity.
  - rewrite <- !app_assoc. eapply fin; [apply (done_verbatim n n); auto| | |reflexivity].
    + rewrite !blen_app, !blen_ticks. lia.
    + rewrite Nat.ltb_irrefl. replace ((n <? 3) && existsb (N.eqb 10) w) with false; [reflexivity|].
      symmetry. apply andb_false_iff. destruct M as [M|M]; [left; apply Nat.ltb_ge; lia|right].
      rewrite <- existsb_nl in M. now destruct (existsb _ _).
  - rewrite <- !app_assoc. eapply fin; [apply (done_verbatim n n); auto| | |].
    + rewrite !blen_app, !blen_ticks. lia.
    + rewrite Nat.ltb_irrefl. replace (n <? 3) with true by (symmetry; apply Nat.ltb_lt; lia).
      now rewrite (proj2 (existsb_nl w) M2).
    + cbn [set_quote_dir]. replace (3 <=? n) with false by (symmetry; apply Nat.leb_gt; lia). reflexivity.
  - rewrite <- !app_assoc. eapply fin; [apply (done_verbatim n m); auto; lia| | |reflexivity].
    + rewrite !blen_app, !blen_ticks. lia.
    + replace (n <? m) with true by (symmetry; apply Nat.ltb_lt; lia). reflexivity.
  - rewrite app_nil_r. eapply fin; [apply (done_verbatim_open n w); auto|reflexivity|reflexivity|reflexivity].
  - rewrite <- !app_assoc. eapply fin; [apply (done_close w rest); auto| |reflexivity|reflexivity].
    rewrite !blen_app. change (blen (lit "</")) with 2. change (blen (lit ">")) with 1. lia.
  - eapply fin; reflexivity.
  - rewrite <- app_assoc. eapply fin; [apply (done_close_name w rest); auto| |reflexivity|reflexivity].
    rewrite !blen_app. change (blen (lit "</")) with 2. lia.
  - eapply fin; [apply (done_close_bad rest); auto|reflexivity|reflexivity|reflexivity].
  - eapply fin; [eapply (done_punctuation p no k rest); eauto|reflexivity|reflexivity|].
    unfold punctuation in I. cbn [In] in I. clear F.
    repeat (destruct I as [[= <- <- <-]|I]; [reflexivity|]). destruct I.
  - eapply fin; reflexivity.
  - eapply fin; reflexivity.
  - cbn [app]. eapply fin; [apply (done_raw c w rest); auto|reflexivity|reflexivity|reflexivity].
Qed.

(** ** The whole text. *)
Lemma lexeme_nonempty dir text rest k e : Lexeme dir text rest k e -> text <> [].
Proof.
  destruct 1; try discriminate; try assumption.
  - destruct H1 as (a & b & c & ->). now destruct a.
  - destruct H as (c & t & -> & _). discriminate.
  - destruct n; [lia|discriminate].
  - destruct n; [lia|discriminate].
  - destruct n; [lia|discriminate].
  - destruct n; [lia|discriminate].
  - unfold punctuation in H. cbn [In] in H. repeat (destruct H as [[= <- <- <-]|H]; [discriminate|]). destruct H.
Qed.
Lemma after_is k d : After k d <-> next_quote_dir k = d.
Proof.
  split.
  - destruct 1 as [k H|k H]; unfold opening in H; cbn [In] in H.
    + repeat (destruct H as [<-|H]; [reflexivity|]). destruct H.
    + destruct k; try reflexivity; exfalso; apply H; tauto.
  - intros <-. destruct k; try (apply after_opening; unfold opening; cbn [In]; tauto); apply after_other; unfold opening; cbn [In]; intuition discriminate.
Qed.
Lemma lex_sound fuel : forall rest cur dir l e, lex fuel rest cur dir = Ret (l, e) -> Lexes cur dir rest l e.
Proof.
  induction fuel as [|fuel IH]; intros rest cur dir l e.
  - destruct rest; [intros [= <- <-]; constructor|discriminate].
  - destruct rest as [|c t]; [intros [= <- <-]; constructor|]. intros H.
    destruct (lex_step _ _ _ _ _ _ _ H) as (len & k & err & text & rest' & toks & errs & Nx & Nt & B & E & L & -> & ->).
    destruct (next_token_sound dir _ _ _ _ Nx) as (text' & rest'' & E' & B' & Lx).
    assert (X : text' = text /\ rest'' = rest').
    { rewrite E in E'. pose proof (split_bytes_app text rest') as S1. pose proof (split_bytes_app text' rest'') as S2.
      rewrite <- E', B', <- B in S2. rewrite S1 in S2. now injection S2 as <- <-. }
    destruct X as [-> ->]. rewrite E. subst len. eapply lexes_more; [exact Lx|now apply after_is|]. now apply IH.
Qed.
Lemma lex_complete cur dir src l e : Lexes cur dir src l e -> (forall b, Reads dir src b -> ~ CutEscape b) ->
  forall fuel, length src <= fuel -> lex fuel src cur dir = Ret (l, e).
Proof.
  induction 1 as [pos dir|pos dir text rest k c next toks errs Lx Af _ IH]; intros C fuel F; [now destruct fuel|].
  pose proof (lexeme_nonempty _ _ _ _ _ Lx) as Ne.
  destruct (next_token_complete _ _ _ _ _ Lx) as [Cut|(k0 & Nx & K)]; [now destruct (C _ (reads_none dir _))|].
  destruct fuel as [|fuel]; [rewrite app_length in F; destruct text; [now destruct Ne|cbn in F; lia]|].
  rewrite app_length in F.
  assert (X : lex (S fuel) (text ++ rest) pos dir = obind (next_token (text ++ rest)) (fun '(len, kind, error) =>
        match len with
        | O => Panic
        | _ =>
          let kind := set_quote_dir kind dir in
          match split_bytes (text ++ rest) len with
          | None => Panic
          | Some (text, rest') =>
            obind (lex fuel rest' (pos + len) (next_quote_dir kind)) (fun '(toks, errs) =>
              Ret ({| tk_kind := kind; tk_text := text; tk_start := pos; tk_end := pos + len |} :: toks,
                   match error with Some e => [(e, (pos, pos + len))] | None => [] end ++ errs))
          end
        end)) by (destruct text as [|x text]; [now destruct Ne|reflexivity]).
  rewrite X, Nx. cbn [obind]. destruct (blen text) as [|n] eqn:B; [now apply blen_0 in B|]. rewrite <- B in IH |- *.
  cbv zeta. rewrite split_bytes_app, K, (proj1 (after_is _ _) Af), IH; [reflexivity| |].
  - intros b R. apply C. eapply reads_more; eassumption.
  - destruct text; [now destruct Ne|cbn in F; lia].
Qed.

Lemma tokenize_sound src toks errs : tokenize src false = Ret (toks, errs) -> Lexes 0 QLeft src toks errs.
Proof. intros H. apply tokenize_all in H. eapply lex_sound; exact H. Qed.
Lemma tokenize_complete src toks errs : Uncut src ->
  Lexes 0 QLeft src toks errs -> tokenize src false = Ret (toks, errs).
Proof. intros C H. apply tokenize_all. eapply lex_complete; eauto. Qed.

(** ** Crashes happen exactly where the digits of a numeric escape would end inside a character. *)
Lemma next_token_panic c t : next_token (c :: t) = Panic -> CutEscape (c :: t).
Proof.
  unfold next_token. cbv beta zeta. intros H.
  destruct (c =? c_of "#")%N; [discriminate|]. destruct (is_ascii_whitespace c); [discriminate|]. destruct (is_ident_start c); [discriminate|].
  destruct (is_ascii_digit c); [discriminate|]. destruct ((_ || _) && _); [discriminate|]. destruct (_ && _); [now destruct (next_is _ _)|].
  destruct (N.eqb_spec c (c_of "\")) as [->|].
  { destruct t as [|d t2]; [discriminate|]. destruct (d =? 10)%N; [discriminate|]. destruct (_ || _ || _) eqn:X; [|discriminate].
    destruct (_ <=? _) eqn:L; [|discriminate]. apply Nat.leb_le in L.
    change (c_of "x") with 120%N in *. change (c_of "u") with 117%N in *. change (c_of "U") with 85%N in *.
    assert (Ex : exists n, In (d, n) numeric_escapes /\ (if (d =? 120)%N then 4 else if (d =? 117)%N then 6 else 10) = 2 + n /\ (d < 128)%N).
    { unfold numeric_escapes. destruct (N.eqb_spec d 120) as [->|]; [exists 2; cbn [In]; repeat split; tauto|].
      destruct (N.eqb_spec d 117) as [->|]; [exists 4; cbn [In]; repeat split; tauto|].
      destruct (N.eqb_spec d 85) as [->|]; [exists 8; cbn [In]; repeat split; tauto|discriminate]. }
    destruct Ex as (n & I & En & A). rewrite En in *. replace (2 + n - 2) with n in H by lia.
    exists d, n, t2. split; [reflexivity|]. split; [exact I|].
    change (c_of "\") with 92%N in L. rewrite !blen_one in L by lia. split; [lia|]. intros a b E1 E2.
    assert (split_bytes t2 n = Some (a, b)) as Z by now apply split_bytes_spec. rewrite Z in H. now destruct (forallb _ _). }
  exfalso. revert H.
  destruct (c =? _)%N; [destruct (find_sub _ _) as [[? ?]|]; [|discriminate]; destruct (_ <? _); [discriminate|]; now destruct (_ && _)|].
  destruct (c =? _)%N; [destruct (starts_with _ _); [now destruct (find_sub _ _) as [[? ?]|]|];
    destruct (next_is _ _); [|discriminate]; destruct (next_is _ _); [now destruct (next_is _ _)|now destruct (starts_with _ _)]|].
  destruct (_ && _); [discriminate|]. destruct (_ && _); [discriminate|].
  do 7 (destruct (c =? _)%N; [discriminate|]). destruct (_ && _); [discriminate|].
  do 5 (destruct (c =? _)%N; [discriminate|]). do 4 (destruct (c =? _)%N; [now destruct (starts_with _ _)|]).
  do 2 (destruct (c =? _)%N; [discriminate|]). discriminate.
Qed.
