(** Proofs about prose: the tokens of a word, and those of a text. *)
From Verif Require Import Base BaseFacts M_Text M_Token M_Tokenizer M_TokenText S_Front P_Tokenizer S_TextSubs S_Prose P_Prose.
From Verif Require Import M_TextSubs M_Types M_Diag M_Queue M_Ast M_Parser.

(** ** Quotation marks *)
Lemma snoc_inj {A} (a b : list A) x y : a ++ [x] = b ++ [y] -> a = b /\ x = y.
Proof. apply app_inj_tail. Qed.
Lemma opens_snoc b c : Opens (b ++ [c]) <-> (c = 40 \/ c = 61)%N \/ c = 62%N /\ ~ (exists a, b = a ++ [45%N]).
Proof.
  unfold Opens. split.
  - intros [H | [(a & x & E & I) | [(a & E) N]]].
    + now destruct b.
    + apply snoc_inj in E as [-> ->]. cbn [lit map] in I. left. cbn in I. intuition auto.
    + change (lit ">") with [62%N] in E. apply snoc_inj in E as [-> ->]. right. split; [reflexivity|]. intros [a' ->].
      apply N. exists a'. change (lit "->") with [45%N; 62%N]. now rewrite <- app_assoc.
  - intros [H | [-> N]].
    + right. left. exists b, c. split; [reflexivity|]. cbn. intuition auto.
    + right. right. split; [now exists b|]. intros [a E]. apply N. change (lit "->") with ([45%N] ++ [62%N]) in E.
      rewrite app_assoc in E. apply snoc_inj in E as [-> _]. now exists a.
Qed.
(** The direction kept by the tokenizer is that of the specification; and the arrow was not overlooked *)
Definition Dir (before w : str) (d : quote_dir) : Prop :=
  (d = QLeft <-> Opens before) /\ ((exists a, before = a ++ [45%N]) -> next_is (N.eqb 62) w = false).
Lemma dir_start w : Dir [] w QLeft.
Proof. split; [split; [now left|reflexivity]|]. intros [a E]. now destruct a. Qed.

Lemma ordinary_ok c : ordinary c = true -> ~ In c (lit "'""|") /\ c <> 46%N.
Proof.
  unfold ordinary. rewrite negb_true_iff, !orb_false_iff, !N.eqb_neq. cbn. intuition congruence.
Qed.
Lemma typeset_copies text : forall before w u, Forall (fun c => ordinary c = true) text ->
  Typeset (before ++ text) w u -> Typeset before (text ++ w) (text ++ u).
Proof.
  induction text as [|c text IH]; intros before w u F H; [now rewrite app_nil_r in H|].
  inversion F as [|? ? O F']; subst. apply ordinary_ok in O as [O1 O2]. cbn [app]. apply ts_copy; [exact O1| |].
  - intros [r E]. now injection E as ->.
  - apply IH; [exact F'|]. now rewrite <- app_assoc.
Qed.

Lemma opener_ordinary c : opener c = true -> ordinary c = true.
Proof. unfold opener. rewrite !orb_true_iff, !N.eqb_eq. intros [[-> | ->] | ->]; reflexivity. Qed.
Lemma opener_not c : opener c = false -> c <> 40%N /\ c <> 61%N /\ c <> 62%N.
Proof. unfold opener. rewrite !orb_false_iff, !N.eqb_neq. tauto. Qed.
Lemma texty_dir k d : texty k -> set_quote_dir k d = k.
Proof.
  intros [T _]. destruct k; try reflexivity.
  all: match goal with |- set_quote_dir ?K _ = _ => specialize (T {| tk_kind := K; tk_text := []; tk_start := 0; tk_end := 0 |} eq_refl) end.
  all: match type of T with context [Quote ?q ?e] => destruct q, e; discriminate T end.
Qed.
(** One token: what it contributes *)
Lemma chunk_typeset text w k before d : Chunk text w k -> Dir before (text ++ w) d ->
  exists u, (forall tok, tk_kind tok = set_quote_dir k d -> tk_text tok = text -> token_text tok = Some u) /\ u <> [] /\
    set_quote_dir k d <> LAngle /\
    Dir (before ++ text) w (next_quote_dir (set_quote_dir k d)) /\
    (forall v, Typeset (before ++ text) w v -> Typeset before (text ++ w) (u ++ v)).
Proof.
  intros C [D1 D2].
  assert (R : forall b c, opener c = false -> ~ Opens (b ++ [c])).
  { intros b c O H. apply opener_not in O as (A1 & A2 & A3). apply opens_snoc in H. intuition. }
  destruct C.
  - pose proof (texty_dir k d H0) as Q. destruct H0 as [T1 T2].
    rewrite Q, H1. exists (text ++ [c]). split; [intros tok E1 <-; now apply T1|]. split; [now destruct text|]. split; [exact T2|]. split.
    + split.
      * split; [discriminate|]. intros O. exfalso. rewrite app_assoc in O. now apply R in O.
      * intros [a E]. rewrite app_assoc in E. apply snoc_inj in E as [_ ->]. now apply H3.
    + intros v V. now apply typeset_copies.
  - exists [45%N; 62%N]. split; [intros tok E1 <-; unfold token_text; now rewrite E1|]. split; [discriminate|]. split; [discriminate|]. split.
    + split.
      * cbn [next_quote_dir set_quote_dir]. split; [discriminate|]. intros O. exfalso.
        change (before ++ [45%N; 62%N]) with (before ++ [45%N] ++ [62%N]) in O. rewrite app_assoc in O.
        apply opens_snoc in O as [[O | O] | [_ O]]; try discriminate O. apply O. now exists before.
      * intros [a E]. change (before ++ [45%N; 62%N]) with (before ++ [45%N] ++ [62%N]) in E. rewrite app_assoc in E.
        apply snoc_inj in E as [_ E]. discriminate E.
    + intros v V. apply (typeset_copies [45%N; 62%N]); [repeat constructor|exact V].
  - pose proof (texty_dir k d H0) as Q. destruct H0 as [T1 T2].
    rewrite Q, H1. exists [c]. split; [intros tok E1 <-; now apply T1|]. split; [discriminate|]. split; [exact T2|]. split.
    + split.
      * split; [|reflexivity]. intros _. apply opens_snoc. unfold opener in H. rewrite !orb_true_iff, !N.eqb_eq in H.
        destruct H as [H | ->]; [now left|]. right. split; [reflexivity|]. intros E. specialize (D2 E). discriminate D2.
      * intros [a E]. apply snoc_inj in E as [_ ->]. discriminate H.
    + intros v V. apply (typeset_copies [c]); [repeat constructor; now apply opener_ordinary|exact V].
  - exists [47%N; 62%N]. split; [intros tok E1 <-; unfold token_text; now rewrite E1|]. split; [discriminate|]. split; [discriminate|].
    assert (S : before ++ [47%N; 62%N] = (before ++ [47%N]) ++ [62%N]) by now rewrite <- app_assoc. split.
    + rewrite S. split.
      * split; [|reflexivity]. intros _. apply opens_snoc. right. split; [reflexivity|]. intros [a E]. apply snoc_inj in E as [_ E]. discriminate E.
      * intros [a E]. apply snoc_inj in E as [_ E]. discriminate E.
    + intros v V. apply (typeset_copies [47%N; 62%N]); [repeat constructor|exact V].
  - exists [8230%N]. split; [intros tok E1 _; unfold token_text; now rewrite E1|]. split; [discriminate|]. split; [discriminate|].
    assert (S : before ++ [46%N; 46%N; 46%N] = (before ++ [46%N; 46%N]) ++ [46%N]) by now rewrite <- app_assoc. split.
    + rewrite S. split.
      * split; [discriminate|]. intros O. exfalso. revert O. now apply R.
      * intros [a E]. apply snoc_inj in E as [_ E]. discriminate E.
    + intros v V. cbn [app]. now apply (ts_dots before w v).
  - exists [46%N]. split; [intros tok E1 <-; unfold token_text; now rewrite E1|]. split; [discriminate|]. split; [discriminate|]. split.
    + split.
      * split; [discriminate|]. intros O. exfalso. revert O. now apply R.
      * intros [a E]. apply snoc_inj in E as [_ E]. discriminate E.
    + intros v V. cbn [app]. apply ts_copy; [|intros [r E]; injection E as ->; discriminate H|exact V]. cbn. intuition discriminate.
  - exists [8288%N]. split; [intros tok E1 _; unfold token_text; now rewrite E1|]. split; [discriminate|]. split; [discriminate|]. split.
    + split.
      * split; [discriminate|]. intros O. exfalso. revert O. now apply R.
      * intros [a E]. apply snoc_inj in E as [_ E]. discriminate E.
    + intros v V. cbn [app]. now apply (ts_joiner before w v).
  - cbn [set_quote_dir].
    assert (Oc : opener c = false /\ c <> 45%N) by (cbn in H; destruct H as [[= <- <-] | [[= <- <-] | []]]; split; (reflexivity || discriminate)).
    exists [match q, d with QSingle, QLeft => 8216 | QSingle, QRight => 8217 | QDouble, QLeft => 8220 | QDouble, QRight => 8221 end%N].
    split; [intros tok E1 _; unfold token_text; rewrite E1; destruct q, d; reflexivity|]. split; [destruct q, d; discriminate|].
    split; [discriminate|]. split.
    + split.
      * split; [discriminate|]. intros O. exfalso. revert O. now apply R.
      * intros [a E]. apply snoc_inj in E as [_ E]. now subst c.
    + intros v V. cbn [app]. destruct d.
      * apply ts_open; [now apply D1| |exact V]. cbn in H |- *. destruct H as [[= <- <-] | [[= <- <-] | []]]; auto.
      * apply ts_close; [intros O; apply D1 in O; discriminate O| |exact V]. cbn in H |- *.
        destruct H as [[= <- <-] | [[= <- <-] | []]]; auto.
Qed.

(** ** Runs of tokens *)
Inductive Texts : list token -> str -> Prop :=
| tx_nil : Texts [] []
| tx_cons t a l u : tk_kind t <> LAngle -> token_text t = Some a -> Texts l u -> Texts (t :: l) (a ++ u).
Definition Clean (l : list token) : Prop := l = [] \/ exists t r, l = t :: r /\ tok_is_whitespace t = true.
(** The tokens, and the syntax tree that they will give *)
Inductive Reads : list token -> list node -> Prop :=
| rd_nil : Reads [] []
| rd_white t l ns : tk_kind t = Whitespace -> Reads l ns -> Reads (t :: l) (AWhitespace :: ns)
| rd_break t l ns : tk_kind t = Newline -> Reads l ns -> Reads (t :: l) (AParagraphBreak :: ns)
| rd_text toks l u ns : toks <> [] -> Texts toks u -> Clean l -> Reads l ns -> Reads (toks ++ l) (AText (substitutions u) :: ns).

Definition Lexes (rest : str) (d : quote_dir) (P : list token -> Prop) : Prop :=
  forall fuel cur, length rest <= fuel -> exists l, lex fuel rest cur d = Ret (l, []) /\ P l.
Lemma lexes_nil d (P : list token -> Prop) : P [] -> Lexes [] d P.
Proof. intros H fuel cur _. exists []. split; [now destruct fuel|exact H]. Qed.
Lemma lexes_token text rest k d (P Q : list token -> Prop) : text <> [] -> next_token (text ++ rest) = Ret (blen text, k, None) ->
  Lexes rest (next_quote_dir (set_quote_dir k d)) P ->
  (forall t l, tk_kind t = set_quote_dir k d -> tk_text t = text -> P l -> Q (t :: l)) -> Lexes (text ++ rest) d Q.
Proof.
  intros Nt N L H fuel cur Hf. destruct text as [|c text]; [now contradiction Nt|]. cbn [app length] in Hf.
  destruct fuel as [|fuel]; [lia|]. destruct (L fuel (cur + blen (c :: text))) as (l & E & Pl); [rewrite app_length in Hf; lia|].
  exists (Token (set_quote_dir k d) (c :: text) cur (cur + blen (c :: text)) :: l). split; [|now apply H].
  cbn [app lex] in *. rewrite N. cbn [obind]. pose proof (utf8_len_pos c) as Hc.
  remember (blen (c :: text)) as n eqn:En. destruct n as [|n]; [cbn [blen] in En; lia|]. rewrite En.
  rewrite (split_bytes_app (c :: text) rest : split_bytes (c :: text ++ rest) _ = _). rewrite En in E. rewrite E. reflexivity.
Qed.

Lemma lex_word w : forall before d rest P, Forall (fun c => is_ascii_whitespace c = false) w -> Prose (w ++ rest) -> Edge rest ->
  Dir before w d -> (forall d', Lexes rest d' P) ->
  exists u, Typeset before w u /\ (w <> [] -> u <> []) /\
    Lexes (w ++ rest) d (fun l => exists toks l', l = toks ++ l' /\ Texts toks u /\ (w <> [] -> toks <> []) /\ P l').
Proof.
  remember (length w) as n eqn:En. assert (Hn : length w <= n) by lia. clear En. revert w Hn.
  induction n as [|n IH]; intros w Hn before d rest P F Pr E D L.
  - destruct w; [|cbn in Hn; lia]. exists []. split; [constructor|]. split; [congruence|]. intros fuel cur Hf.
    destruct (L d fuel cur Hf) as (l & El & Pl). exists l. split; [exact El|]. exists [], l. split; [reflexivity|]. split; [constructor|].
    split; [congruence|exact Pl].
  - destruct w as [|c w].
    { destruct (IH [] (Nat.le_0_l _) before d rest P F Pr E D L) as (u & H). now exists u. }
    inversion F as [|? ? Wc F']; subst.
    destruct (chunk c w rest Pr Wc E) as (text & w2 & k & Ew & Nt & Nx & C). rewrite Ew in D.
    destruct (chunk_typeset _ _ _ _ _ C D) as (u1 & T1 & Nu & Ka & D' & Ts).
    assert (Lw : length w2 <= n).
    { destruct text as [|x text]; [now contradiction Nt|]. injection Ew as -> Ew. rewrite Ew in Hn. cbn [length] in Hn.
      rewrite app_length in Hn. lia. }
    assert (Fw : Forall (fun c => is_ascii_whitespace c = false) w2) by (rewrite Ew in F; now apply Forall_app in F).
    assert (Pw : Prose (w2 ++ rest)).
    { assert (S : (c :: w) ++ rest = text ++ w2 ++ rest) by now rewrite Ew, app_assoc. rewrite S in Pr. eapply prose_app. exact Pr. }
    destruct (IH w2 Lw _ _ _ _ Fw Pw E D' L) as (u2 & Ty & _ & Lx).
    exists (u1 ++ u2). split; [rewrite Ew; now apply Ts|]. split; [intros _ H; now destruct u1|].
    rewrite Ew, <- app_assoc.
    eapply lexes_token; [exact Nt| |exact Lx|].
    { rewrite app_assoc, <- Ew. exact Nx. }
    intros t l Kt Tt (toks & l' & -> & Tx & _ & Pl). exists (t :: toks), l'. split; [reflexivity|]. split; [|split; [discriminate|exact Pl]].
    constructor; [now rewrite Kt|now apply T1|exact Tx].
Qed.

Lemma breaks_count g : is_paragraph_break g = (2 <=? line_feeds g).
Proof.
  unfold is_paragraph_break, line_feeds. f_equal. induction g as [|c g IH]; [reflexivity|]. cbn [filter count_occ].
  destruct (N.eq_dec c 10) as [->|N]; [cbn; now rewrite IH|]. destruct (N.eqb_spec 10 c); [congruence|exact IH].
Qed.
Definition gap_node (g : str) : node := if 2 <=? line_feeds g then AParagraphBreak else AWhitespace.
Lemma lex_gap g rest d ns : Blank g -> g <> [] -> (forall c r, rest = c :: r -> is_ascii_whitespace c = false) ->
  Lexes rest QLeft (fun l => Reads l ns) -> Lexes (g ++ rest) d (fun l => Reads l (gap_node g :: ns) /\ Clean l).
Proof.
  intros B Ng Nr L.
  assert (A : Forall (fun c => is_ascii_whitespace c = true) g) by (eapply Forall_impl; [|exact B]; intros c; apply white_iff).
  assert (N : next_token (g ++ rest) = Ret (blen g, if 2 <=? line_feeds g then Newline else Whitespace, None)).
  { destruct g as [|c g]; [now contradiction Ng|]. inversion A as [|? ? Wc A']; subst. unfold next_token. cbn [app]. cbv zeta.
    assert (E35 : (c =? c_of "#")%N = false) by (destruct (N.eqb_spec c (c_of "#")) as [->|]; [discriminate Wc|reflexivity]).
    rewrite E35, Wc.
    assert (S : scan_while is_ascii_whitespace (g ++ rest) = blen g).
    { unfold scan_while. f_equal. clear - A' Nr. induction A' as [|x g Hx A IH]; cbn [app take_while]; [|rewrite Hx; now f_equal].
      destruct rest as [|c r]; [reflexivity|]. cbn [take_while]. now rewrite (Nr c r eq_refl). }
    rewrite S. assert (B1 : 1 + blen g = blen (c :: g)) by (cbn [blen]; now rewrite (utf8_len_ascii c) by now apply ws_ascii).
    rewrite B1. rewrite (prefix_app (c :: g) rest : prefix_str (c :: g ++ rest) _ = _). rewrite breaks_count. reflexivity. }
  eapply lexes_token; [exact Ng|exact N| |].
  - instantiate (1 := fun l => Reads l ns). destruct (2 <=? line_feeds g); exact L.
  - intros t l Kt _ R. unfold gap_node. split.
    + destruct (2 <=? line_feeds g); cbn [set_quote_dir] in Kt; now constructor.
    + right. exists t, l. split; [reflexivity|]. unfold tok_is_whitespace. rewrite Kt. destruct (2 <=? line_feeds g); reflexivity.
Qed.

(** ** The whole text *)
Definition text_node (u : str) : node := AText (substitutions u).
Fixpoint word_nodes (us : list str) : list node :=
  match us with [] => [] | [u] => [text_node u] | u :: us => text_node u :: AWhitespace :: word_nodes us end.
Fixpoint par_nodes (uss : list (list str)) : list node :=
  match uss with [] => [] | [us] => word_nodes us | us :: uss => word_nodes us ++ AParagraphBreak :: par_nodes uss end.

Lemma edge_blank g rest : Blank g -> g <> [] -> Edge (g ++ rest).
Proof. intros B N. destruct g as [|c g]; [now contradiction N|]. right. exists c, (g ++ rest). inversion B; subst. split; [reflexivity|now apply white_iff]. Qed.
Lemma word_head w : Word w -> forall c r, w = c :: r -> is_ascii_whitespace c = false.
Proof. intros [_ F] c r ->. inversion F; subst. now apply not_white. Qed.
Lemma words_head s ws : Words s ws -> exists c r, s = c :: r /\ is_ascii_whitespace c = false.
Proof.
  intros H. assert (G : exists w r, Word w /\ s = w ++ r).
  { destruct H as [w W|w g s ws W B N _ _]; [exists w, []; split; [exact W|now rewrite app_nil_r]|now exists w, (g ++ s)]. }
  destruct G as (w & r & W & ->). pose proof W as [Nw _]. destruct w as [|c w]; [now contradiction Nw|].
  exists c, (w ++ r). split; [reflexivity|]. eapply word_head; [exact W|reflexivity].
Qed.
Lemma head_app (s rest : str) : (exists c r, s = c :: r /\ is_ascii_whitespace c = false) ->
  forall c r, s ++ rest = c :: r -> is_ascii_whitespace c = false.
Proof. intros (c & r & -> & W) c' r' [= <- _]. exact W. Qed.

Lemma lex_one w rest ns : Word w -> Prose (w ++ rest) -> Edge rest ->
  (forall d, Lexes rest d (fun l => Reads l ns /\ Clean l)) ->
  exists u, Typeset [] w u /\ u <> [] /\ Lexes (w ++ rest) QLeft (fun l => Reads l (text_node u :: ns)).
Proof.
  intros [Nw F] P E L.
  assert (F' : Forall (fun c => is_ascii_whitespace c = false) w) by (eapply Forall_impl; [|exact F]; intros c; apply not_white).
  destruct (lex_word w [] QLeft rest _ F' P E (dir_start w) L) as (u & T & Nu & Lx). exists u. split; [exact T|]. split; [now apply Nu|].
  intros fuel cur Hf. destruct (Lx fuel cur Hf) as (l & El & toks & l' & -> & Tx & Nt & R & C). eexists. split; [exact El|].
  apply rd_text; auto.
Qed.
Lemma lex_words s ws : Words s ws -> forall rest ns, Prose (s ++ rest) -> Edge rest ->
  (forall d, Lexes rest d (fun l => Reads l ns /\ Clean l)) ->
  exists us, Forall2 (fun w u => Typeset [] w u /\ u <> []) ws us /\ us <> [] /\ Lexes (s ++ rest) QLeft (fun l => Reads l (word_nodes us ++ ns)).
Proof.
  induction 1 as [w W|w g s ws W B N C H IH]; intros rest ns P E L.
  - destruct (lex_one w rest ns W P E L) as (u & T & Nu & Lx). exists [u]. split; [repeat constructor; auto|]. split; [discriminate|exact Lx].
  - rewrite <- !app_assoc in P.
    assert (Ps : Prose (s ++ rest)) by (apply prose_app in P; now apply prose_app in P).
    destruct (IH rest ns Ps E L) as (us & F & Nu & Lx).
    destruct (lex_one w (g ++ s ++ rest) (AWhitespace :: word_nodes us ++ ns) W P (edge_blank g _ B N)) as (u & T & Nu' & Ly).
    { intros d. replace AWhitespace with (gap_node g); [apply lex_gap; auto|].
      - apply head_app. eapply words_head. exact H.
      - unfold gap_node. destruct (Nat.leb_spec 2 (line_feeds g)); [lia|reflexivity]. }
    exists (u :: us). split; [constructor; auto|]. split; [discriminate|]. rewrite <- !app_assoc.
    replace (word_nodes (u :: us) ++ ns) with (text_node u :: AWhitespace :: word_nodes us ++ ns); [exact Ly|].
    destruct us; [now contradiction Nu|reflexivity].
Qed.
Lemma pars_head s ps : Paragraphs s ps -> exists c r, s = c :: r /\ is_ascii_whitespace c = false.
Proof.
  destruct 1 as [s ws H|s ws g t ps H B _ _]; [eapply words_head; exact H|].
  apply words_head in H as (c & r & -> & W). now exists c, (r ++ g ++ t).
Qed.
Lemma lex_pars s ps : Paragraphs s ps -> forall rest ns, Prose (s ++ rest) -> Edge rest ->
  (forall d, Lexes rest d (fun l => Reads l ns /\ Clean l)) ->
  exists uss, Forall2 (Forall2 (fun w u => Typeset [] w u /\ u <> [])) ps uss /\ uss <> [] /\ Forall (fun us => us <> []) uss /\
    Lexes (s ++ rest) QLeft (fun l => Reads l (par_nodes uss ++ ns)).
Proof.
  induction 1 as [s ws H|s ws g t ps H B C H' IH]; intros rest ns P E L.
  - destruct (lex_words _ _ H _ _ P E L) as (us & F & N & Lx). exists [us]. split; [repeat constructor; auto|]. split; [discriminate|].
    split; [repeat constructor; auto|exact Lx].
  - rewrite <- !app_assoc in P. assert (Ng : g <> []) by (intros ->; cbn in C; lia).
    assert (Ps : Prose (t ++ rest)) by (apply prose_app in P; now apply prose_app in P).
    destruct (IH rest ns Ps E L) as (uss & F & N & Fn & Lx).
    destruct (lex_words _ _ H (g ++ t ++ rest) (AParagraphBreak :: par_nodes uss ++ ns) P (edge_blank g _ B Ng)) as (us & F' & N' & Ly).
    { intros d. replace AParagraphBreak with (gap_node g); [apply lex_gap; auto|].
      - apply head_app. eapply pars_head. exact H'.
      - unfold gap_node. destruct (Nat.leb_spec 2 (line_feeds g)); [reflexivity|lia]. }
    exists (us :: uss). split; [constructor; auto|]. split; [discriminate|]. split; [constructor; auto|]. rewrite <- !app_assoc.
    replace (par_nodes (us :: uss) ++ ns) with (word_nodes us ++ AParagraphBreak :: par_nodes uss ++ ns); [exact Ly|].
    destruct uss; [now contradiction N|]. cbn [par_nodes]. now rewrite <- app_assoc.
Qed.
Definition Spaces (ns : list node) : Prop := ns = [] \/ exists n, ns = [n] /\ node_is_whitespace n = true.
Lemma gap_spaces g : node_is_whitespace (gap_node g) = true.
Proof. unfold gap_node. now destruct (2 <=? line_feeds g). Qed.
Lemma lex_laid s ps : Laid s ps -> Prose s ->
  exists uss lead trail, Forall2 (Forall2 (fun w u => Typeset [] w u /\ u <> [])) ps uss /\ Forall (fun us => us <> []) uss /\
    Spaces lead /\ Spaces trail /\ Lexes s QLeft (fun l => Reads l (lead ++ par_nodes uss ++ trail)).
Proof.
  assert (End : forall b, Blank b -> exists trail, Spaces trail /\ forall d, Lexes b d (fun l => Reads l trail /\ Clean l)).
  { intros b B. destruct b as [|c b].
    - exists []. split; [now left|]. intros d. apply lexes_nil. split; [constructor|now left].
    - exists [gap_node (c :: b)]. split; [right; eexists; split; [reflexivity|apply gap_spaces]|]. intros d.
      assert (G : Lexes ((c :: b) ++ []) d (fun l => Reads l [gap_node (c :: b)] /\ Clean l)).
      { apply lex_gap; [exact B|discriminate|discriminate|]. apply lexes_nil. constructor. }
      now rewrite app_nil_r in G. }
  destruct 1 as [s B|a s b ps Ba H Bb]; intros P.
  - destruct (End s B) as (trail & St & L). exists [], [], trail. split; [constructor|]. split; [constructor|]. split; [now left|].
    split; [exact St|]. intros fuel cur Hf. destruct (L QLeft fuel cur Hf) as (l & El & R & _). now exists l.
  - destruct (End b Bb) as (trail & St & L). pose proof (prose_app _ _ P) as P'.
    assert (Eb : Edge b). { destruct b as [|c b]; [now left|]. rewrite <- (app_nil_r (c :: b)). now apply edge_blank. }
    destruct (lex_pars s ps H b trail P' Eb L) as (uss & F & _ & Fn & Lx).
    destruct a as [|c a].
    + exists uss, [], trail. split; [exact F|]. split; [exact Fn|]. split; [now left|]. split; [exact St|exact Lx].
    + exists uss, [gap_node (c :: a)], trail. split; [exact F|]. split; [exact Fn|].
      split; [right; eexists; split; [reflexivity|apply gap_spaces]|]. split; [exact St|].
      assert (G : Lexes ((c :: a) ++ s ++ b) QLeft (fun l => Reads l (gap_node (c :: a) :: par_nodes uss ++ trail) /\ Clean l)).
      { apply lex_gap; [exact Ba|discriminate| |exact Lx]. apply head_app. eapply pars_head. exact H. }
      intros fuel cur Hf. destruct (G fuel cur Hf) as (l & El & R & _). now exists l.
Qed.
