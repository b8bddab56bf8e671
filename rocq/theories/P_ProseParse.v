(** Proofs about prose: how it is parsed. *)
From Verif Require Import Base BaseFacts M_Text M_TextSubs M_Token M_Tokenizer M_TokenText M_Types M_Diag M_Queue M_Ast M_Parser.
From Verif Require Import S_Front P_Tokenizer S_TextSubs S_Prose P_Prose P_ProseLex.

Lemma has_text_ok t a : tk_kind t <> LAngle -> token_text t = Some a -> has_text t = true.
Proof. intros N T. unfold has_text, is_kind, kind_eqb. rewrite T. now destruct (kind_eq_dec (tk_kind t) LAngle). Qed.
Lemma white_no_text t : tok_is_whitespace t = true -> has_text t = false.
Proof.
  intros W. apply ws_White in W. unfold has_text, token_text. destruct W as [W|W]; rewrite W; cbn; now rewrite andb_false_r.
Qed.
Lemma text_loop_texts toks u : Texts toks u -> forall l d fuel t0, Clean l -> length (toks ++ l) < fuel ->
  text_loop fuel t0 (PState (toks ++ l) d) = POk (t0 ++ u) (PState l d).
Proof.
  induction 1 as [|t a toks u K T H IH]; intros l d fuel t0 C Hf; destruct fuel as [|fuel]; try (cbn in Hf; lia).
  - cbn [text_loop app]. rewrite app_nil_r. unfold pbind, poll_if, pbind, peek. cbn [ps_tokens].
    destruct C as [-> | (t & r & -> & W)]; cbn [hd_error]; [reflexivity|]. rewrite (white_no_text t W). reflexivity.
  - cbn [text_loop app]. unfold pbind at 1, poll_if, pbind, peek. cbn [ps_tokens hd_error]. rewrite (has_text_ok t a K T). cbn [poll ps_tokens ps_diags].
    rewrite T, IH; [now rewrite <- app_assoc|exact C|]. cbn [app length] in Hf. lia.
Qed.

Section Parse.
  Variables (src : str) (decode : str -> str) (ok : str -> bool).
  Notation node_of m := (r_node (parsers_n src decode ok m)).
  Lemma node_white m t s : tk_kind t = Whitespace -> node_of (S m) t s = POk AWhitespace s.
  Proof. intros K. cbn. unfold parse_node. now rewrite K. Qed.
  Lemma node_break m t s : tk_kind t = Newline -> node_of (S m) t s = POk AParagraphBreak s.
  Proof. intros K. cbn. unfold parse_node. now rewrite K. Qed.
  Lemma node_text m t a toks u l d : tk_kind t <> LAngle -> token_text t = Some a -> Texts toks u -> Clean l ->
    node_of (S m) t (PState (toks ++ l) d) = POk (AText (substitutions (a ++ u))) (PState l d).
  Proof.
    intros K T Tx C.
    assert (G : node_of (S m) t (PState (toks ++ l) d) = parse_text t (PState (toks ++ l) d)).
    { cbn [parsers_n parser_step r_node]. unfold parse_node. unfold token_text in T.
      destruct (tk_kind t); try discriminate T; try reflexivity. now contradiction K. }
    rewrite G. unfold parse_text. rewrite T. unfold pbind at 1, with_fuel. cbn [ps_tokens]. rewrite (text_loop_texts toks u Tx l d); auto.
  Qed.
  Lemma nodes_loop_reads l ns : Reads l ns -> forall m fuel d, length l < fuel ->
    nodes_loop (node_of (S m)) (fun _ => false) fuel (PState l d) = POk (ns, None) (PState [] d).
  Proof.
    induction 1 as [|t l ns K R IH|t l ns K R IH|toks l u ns N T C R IH]; intros m fuel d Hf; destruct fuel as [|fuel]; try lia.
    - reflexivity.
    - cbn [nodes_loop]. unfold pbind at 1, poll. cbn [ps_tokens]. unfold pbind at 1, p_ok. rewrite (node_white m t _ K). cbn beta iota.
      unfold pbind at 1. rewrite IH; [reflexivity|cbn in Hf; lia].
    - cbn [nodes_loop]. unfold pbind at 1, poll. cbn [ps_tokens]. unfold pbind at 1, p_ok. rewrite (node_break m t _ K). cbn beta iota.
      unfold pbind at 1. rewrite IH; [reflexivity|cbn in Hf; lia].
    - destruct T as [|t a toks u K T Tx]; [now contradiction N|].
      cbn [nodes_loop app]. unfold pbind at 1, poll. cbn [ps_tokens ps_diags]. unfold pbind at 1, p_ok.
      rewrite (node_text m t a toks u l d K T Tx C). cbn beta iota.
      unfold pbind at 1. rewrite IH; [reflexivity|]. cbn [app length] in Hf. rewrite app_length in Hf. lia.
  Qed.

  Lemma reads_white t l ns : tok_is_whitespace t = true -> Reads (t :: l) ns -> exists n ns', ns = n :: ns' /\ node_is_whitespace n = true /\ Reads l ns'.
  Proof.
    intros W R. inversion R as [|? ? ? K R' E1 E2|? ? ? K R' E1 E2|toks l' u ns' N T C R' E1 E2]; subst.
    - now exists AWhitespace, ns0.
    - now exists AParagraphBreak, ns0.
    - exfalso. destruct T as [|t' a toks u K T Tx]; [now apply N|]. injection E1 as -> _. pose proof (white_no_text t W) as H.
      rewrite (has_text_ok t a K T) in H. discriminate H.
  Qed.
  Lemma reads_text t l ns : tok_is_whitespace t = false -> Reads (t :: l) ns -> exists x ns', ns = AText x :: ns'.
  Proof.
    intros W R. inversion R as [|? ? ? K R' E1 E2|? ? ? K R' E1 E2|toks l' u ns' N T C R' E1 E2]; subst.
    - unfold tok_is_whitespace in W. rewrite K in W. discriminate W.
    - unfold tok_is_whitespace in W. rewrite K in W. discriminate W.
    - eauto.
  Qed.
  Definition skip (ns : list node) : list node := match ns with n :: r => if node_is_whitespace n then r else ns | [] => [] end.
  Lemma parse_root_reads l ns d : Reads l ns -> parse_root src decode ok (PState l d) = POk (pop_whitespace (skip ns)) (PState [] d).
  Proof.
    intros R. unfold parse_root, with_fuel at 1. cbn [ps_tokens]. set (m := length l). unfold pbind at 1, parse_nodes_until.
    assert (S : exists l', skip_whitespace (PState l d) = POk tt (PState l' d) /\ Reads l' (skip ns)).
    { unfold skip_whitespace, poll_if, pbind, peek, poll. cbn [ps_tokens]. destruct l as [|t l]; cbn [hd_error].
      - exists []. split; [reflexivity|]. inversion R as [| | |toks l' u ns' N T C R' E1 E2]; subst; [constructor|].
        apply app_eq_nil in E1 as [-> ->]. now contradiction N.
      - destruct (tok_is_whitespace t) eqn:W.
        + destruct (reads_white t l ns W R) as (n & ns' & -> & Wn & R'). exists l. split; [reflexivity|]. cbn [skip]. now rewrite Wn.
        + destruct (reads_text t l ns W R) as (x & ns' & ->). exists (t :: l). split; [reflexivity|exact R]. }
    destruct S as (l' & S & R'). unfold pbind at 1. rewrite S. unfold pbind at 1, with_fuel. cbn [ps_tokens].
    rewrite (nodes_loop_reads l' (skip ns) R' m _ d) by lia. reflexivity.
  Qed.
End Parse.

(** Comments are the only tokens left out *)
Lemma reads_no_comment l ns : Reads l ns -> Forall (fun t => tk_kind t <> Comment) l.
Proof.
  induction 1 as [|t l ns K R IH|t l ns K R IH|toks l u ns N T C R IH]; [constructor|constructor; congruence|constructor; congruence|].
  apply Forall_app. split; [|exact IH]. clear - T. induction T as [|t a l u K T Tx IH]; constructor; [|exact IH].
  intros E. unfold token_text in T. rewrite E in T. discriminate T.
Qed.
Lemma fold_push l : forall acc, Forall (fun t => tk_kind t <> Comment) l ->
  fold_left (fun acc t => push_token true t acc) l acc = fold_left (fun acc t => push_token false t acc) l acc.
Proof.
  induction l as [|t l IH]; intros acc F; [reflexivity|]. inversion F as [|? ? N F']; subst. cbn [fold_left].
  replace (push_token true t acc) with (push_token false t acc); [now apply IH|]. unfold push_token.
  destruct (kind_eqb (tk_kind t) Comment) eqn:K; [|reflexivity]. exfalso. unfold kind_eqb in K. now destruct (kind_eq_dec _ _).
Qed.

Lemma pop_spaces trail : Spaces trail -> pop_whitespace trail = [].
Proof. intros [-> | (n & -> & W)]; [reflexivity|]. cbn. now rewrite W. Qed.
Lemma pop_keeps ns x trail : Spaces trail -> pop_whitespace (ns ++ AText x :: trail) = ns ++ [AText x].
Proof.
  intros St. induction ns as [|n ns IH]; cbn [app pop_whitespace]; [now rewrite (pop_spaces trail St)|]. rewrite IH. now destruct ns.
Qed.
Lemma word_nodes_ends us : us <> [] -> (exists x r, word_nodes us = AText x :: r) /\ exists r x, word_nodes us = r ++ [AText x].
Proof.
  induction us as [|u us IH]; [congruence|]. intros _. destruct us as [|v us].
  - split; [now exists (substitutions u), []|now exists [], (substitutions u)].
  - destruct IH as [_ (r & x & E)]; [discriminate|]. split; [eexists; eexists; reflexivity|].
    exists (text_node u :: AWhitespace :: r), x. change (word_nodes (u :: v :: us)) with (text_node u :: AWhitespace :: word_nodes (v :: us)). now rewrite E.
Qed.
Lemma par_nodes_ends uss : uss <> [] -> Forall (fun us => us <> []) uss ->
  (exists x r, par_nodes uss = AText x :: r) /\ exists r x, par_nodes uss = r ++ [AText x].
Proof.
  induction uss as [|us uss IH]; [congruence|]. intros _ F. inversion F as [|? ? N F']; subst.
  pose proof (word_nodes_ends us N) as [(x & r & E) H]. destruct uss as [|vs uss].
  - split; [eauto|exact H].
  - destruct IH as [_ (r' & x' & E')]; [discriminate|exact F'|].
    change (par_nodes (us :: vs :: uss)) with (word_nodes us ++ AParagraphBreak :: par_nodes (vs :: uss)). split.
    + exists x, (r ++ AParagraphBreak :: par_nodes (vs :: uss)). now rewrite E.
    + exists (word_nodes us ++ AParagraphBreak :: r'), x'. rewrite E', <- app_assoc. reflexivity.
Qed.
Lemma parsed_nodes uss lead trail : Forall (fun us => us <> []) uss -> Spaces lead -> Spaces trail ->
  pop_whitespace (skip (lead ++ par_nodes uss ++ trail)) = par_nodes uss.
Proof.
  intros F Sl St. destruct uss as [|us uss].
  - cbn [par_nodes app]. destruct Sl as [-> | (n & -> & W)]; cbn [app skip].
    + destruct St as [-> | (n & -> & W)]; cbn; [reflexivity|]. now rewrite W.
    + rewrite W. now apply pop_spaces.
  - destruct (par_nodes_ends (us :: uss)) as [(x & r & E) (r' & x' & E')]; [discriminate|exact F|].
    assert (S : skip (lead ++ par_nodes (us :: uss) ++ trail) = par_nodes (us :: uss) ++ trail).
    { destruct Sl as [-> | (n & -> & W)]; cbn [app skip]; [rewrite E; reflexivity|now rewrite W]. }
    rewrite S, E', <- app_assoc. cbn [app]. now apply pop_keeps.
Qed.

Lemma parse_prose src decode ok text ps : Prose text -> Laid text ps ->
  exists uss, Forall2 (Forall2 (fun w u => Typeset [] w u /\ u <> [])) ps uss /\ Forall (fun us => us <> []) uss /\
    parse decode ok src text = Ret (par_nodes uss, []).
Proof.
  intros P L. destruct (lex_laid text ps L P) as (uss & lead & trail & F & Fn & Sl & St & Lx).
  destruct (Lx (length text) 0 (le_n _)) as (l & El & R). exists uss. split; [exact F|]. split; [exact Fn|].
  unfold parse. rewrite tokenize_lex, El. cbn [obind].
  rewrite fold_push by (eapply reads_no_comment; exact R).
  destruct (lex_no_adjacent _ _ _ _ _ _ El) as [A _]. rewrite push_all by exact A. rewrite app_nil_r, rev_involutive. cbn [fst snd map].
  rewrite (parse_root_reads src decode ok l _ [] R). rewrite parsed_nodes by assumption. reflexivity.
Qed.
