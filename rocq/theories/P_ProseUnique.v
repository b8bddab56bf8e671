(** Proofs about the specification of prose: a text has exactly one layout, a word exactly one appearance. *)
From Verif Require Import Base BaseFacts S_TextSubs P_TextSubs M_TextSubs M_Text S_Prose P_Prose P_ProseLex P_ProseEval.

Lemma run_unique (f : char -> bool) w : forall w' x x', Forall (fun c => f c = true) w -> Forall (fun c => f c = true) w' ->
  (forall c r, x = c :: r -> f c = false) -> (forall c r, x' = c :: r -> f c = false) -> w ++ x = w' ++ x' -> w = w' /\ x = x'.
Proof.
  induction w as [|c w IH]; intros w' x x' F F' H H' E.
  - destruct w' as [|c' w']; [auto|]. cbn [app] in E. inversion F'; subst. specialize (H c' (w' ++ x') eq_refl). congruence.
  - inversion F; subst. destruct w' as [|c' w'].
    + cbn [app] in E. specialize (H' c (w ++ x) (eq_sym E)). congruence.
    + injection E as -> E. inversion F'; subst. destruct (IH w' x x') as [-> ->]; auto.
Qed.
Definition Nonwhite (c : char) : bool := negb (is_ascii_whitespace c).
Definition Starts (s : str) : Prop := forall c r, s = c :: r -> is_ascii_whitespace c = false.
Definition Stops (s : str) : Prop := forall c r, s = c :: r -> is_ascii_whitespace c = true.
Lemma gap_unique g g' t t' : Blank g -> Blank g' -> Starts t -> Starts t' -> g ++ t = g' ++ t' -> g = g' /\ t = t'.
Proof.
  intros B B' H H'. apply (run_unique is_ascii_whitespace); auto; (eapply Forall_impl; [|eassumption]); intros c; apply white_iff.
Qed.
Lemma word_unique w w' x x' : Word w -> Word w' -> Stops x -> Stops x' -> w ++ x = w' ++ x' -> w = w' /\ x = x'.
Proof.
  intros W W' H H'. apply (run_unique Nonwhite).
  - eapply Forall_impl; [|apply word_chars; exact W]. intros c Hc. unfold Nonwhite. now rewrite Hc.
  - eapply Forall_impl; [|apply word_chars; exact W']. intros c Hc. unfold Nonwhite. now rewrite Hc.
  - intros c r E. unfold Nonwhite. now rewrite (H c r E).
  - intros c r E. unfold Nonwhite. now rewrite (H' c r E).
Qed.
Lemma blank_stops g t : Blank g -> g <> [] -> Stops (g ++ t).
Proof. intros B N c r E. destruct g; [congruence|]. injection E as -> _. inversion B; subst. now apply white_iff. Qed.
Lemma blank_starts g : Blank g -> Starts g -> g = [].
Proof. intros B S. destruct g as [|c g]; [reflexivity|]. inversion B as [|? ? W _]; subst. apply white_iff in W. rewrite (S c g eq_refl) in W. discriminate W. Qed.
Lemma head_starts s rest : (exists c r, s = c :: r /\ is_ascii_whitespace c = false) -> Starts (s ++ rest) /\ s ++ rest <> [].
Proof. intros (c & r & -> & W). split; [|discriminate]. intros c' r' [= <- _]. exact W. Qed.
Lemma blank_head b s rest : Blank b -> (exists c r, s = c :: r /\ is_ascii_whitespace c = false) -> b = s ++ rest -> False.
Proof. intros B (c & r & -> & W) ->. inversion B as [|? ? H _]; subst. apply white_iff in H. congruence. Qed.

Definition End (e : str) : Prop := exists g t, e = g ++ t /\ Blank g /\ Starts t /\ (t = [] \/ 2 <= line_feeds g).
Lemma end_stops e : End e -> Stops e.
Proof.
  intros (g & t & -> & B & S & H). destruct g as [|c g]; [|now apply blank_stops]. destruct H as [-> | H]; [intros c r E; discriminate E|].
  cbn in H. lia.
Qed.
Lemma end_blank b : Blank b -> End b.
Proof. intros B. exists b, []. split; [now rewrite app_nil_r|]. split; [exact B|]. split; [intros c r E; discriminate E|now left]. Qed.
Lemma words_unique s ws : Words s ws -> forall s' ws' e e', Words s' ws' -> End e -> End e' -> s ++ e = s' ++ e' -> s = s' /\ ws = ws' /\ e = e'.
Proof.
  assert (Mixed : forall w e w' g v e', Word w -> End e -> Word w' -> Blank g -> g <> [] -> line_feeds g <= 1 ->
    (exists c r, v = c :: r /\ is_ascii_whitespace c = false) -> w ++ e = w' ++ g ++ v ++ e' -> False).
  { intros w e w' g v e' W En W' B N C Hs E.
    apply word_unique in E as [_ E]; [|exact W|exact W'|now apply end_stops|now apply blank_stops].
    destruct (head_starts v e' Hs) as [S1 S2]. destruct En as (g0 & t & -> & B0 & S0 & H).
    apply gap_unique in E as [-> ->]; auto. destruct H as [H|H]; [contradiction|lia]. }
  induction 1 as [w W|w g s ws W B N C H IH]; intros s' ws' e e' H' En En' E.
  - destruct H' as [w' W'|w' g' s' ws' W' B' N' C' H'].
    + apply word_unique in E as [-> ->]; auto using end_stops.
    + exfalso. rewrite <- !app_assoc in E. eapply (Mixed w e w' g' s' e'); eauto using words_head.
  - destruct H' as [w' W'|w' g' s' ws' W' B' N' C' H'].
    + exfalso. rewrite <- !app_assoc in E. symmetry in E. eapply (Mixed w' e' w g s e); eauto using words_head.
    + rewrite <- !app_assoc in E. apply word_unique in E as [-> E]; [|exact W|exact W'|now apply blank_stops|now apply blank_stops].
      apply gap_unique in E as [-> E]; auto; [|now apply head_starts; apply words_head in H|now apply head_starts; apply words_head in H'].
      destruct (IH s' ws' e e' H' En En' E) as (-> & -> & ->). auto.
Qed.
Lemma pars_unique s ps : Paragraphs s ps -> forall s' ps' b b', Paragraphs s' ps' -> Blank b -> Blank b' -> s ++ b = s' ++ b' -> ps = ps'.
Proof.
  assert (More : forall g t b, Blank g -> 2 <= line_feeds g -> (exists c r, t = c :: r /\ is_ascii_whitespace c = false) -> End (g ++ t ++ b)).
  { intros g t b B C Ht. exists g, (t ++ b). split; [reflexivity|]. split; [exact B|]. split; [now apply head_starts|now right]. }
  assert (Not : forall g t b b', (exists c r, t = c :: r /\ is_ascii_whitespace c = false) -> Blank b -> b = g ++ t ++ b' -> False).
  { intros g t b b' Ht B E. rewrite E in B. apply Forall_app in B as [_ B]. eapply blank_head; [exact B|exact Ht|reflexivity]. }
  induction 1 as [s ws H|s ws g t ps H B C H2 IH]; intros s' ps' b b' H' Bb Bb' E.
  - destruct H' as [s' ws' H'|s' ws' g' t' ps' H' B' C' H2'].
    + destruct (words_unique _ _ H _ _ _ _ H' (end_blank b Bb) (end_blank b' Bb') E) as (_ & -> & _). reflexivity.
    + exfalso. rewrite <- !app_assoc in E. pose proof (pars_head _ _ H2') as Ht.
      destruct (words_unique _ _ H _ _ _ _ H' (end_blank b Bb) (More g' t' b' B' C' Ht) E) as (_ & _ & E').
      eapply (Not g' t' b b'); eauto.
  - destruct H' as [s' ws' H'|s' ws' g' t' ps' H' B' C' H2'].
    + exfalso. rewrite <- !app_assoc in E. pose proof (pars_head _ _ H2) as Ht.
      destruct (words_unique _ _ H _ _ _ _ H' (More g t b B C Ht) (end_blank b' Bb') E) as (_ & _ & E').
      eapply (Not g t b' b); eauto.
    + rewrite <- !app_assoc in E. pose proof (pars_head _ _ H2) as Ht. pose proof (pars_head _ _ H2') as Ht'.
      destruct (words_unique _ _ H _ _ _ _ H' (More g t b B C Ht) (More g' t' b' B' C' Ht') E) as (_ & -> & E').
      apply gap_unique in E' as [_ E']; [|exact B|exact B'|now apply head_starts|now apply head_starts]. f_equal. exact (IH _ _ _ _ H2' Bb Bb' E').
Qed.
Lemma laid_unique s ps ps' : Laid s ps -> Laid s ps' -> ps = ps'.
Proof.
  assert (Not : forall a s b ps, Paragraphs s ps -> ~ Blank (a ++ s ++ b)).
  { intros a s0 b ps0 H B. apply Forall_app in B as [_ B]. eapply blank_head; [exact B|eapply pars_head; exact H|reflexivity]. }
  intros H H'. inversion H as [s0 B|a s0 b ps0 Ba P Bb]; subst.
  - inversion H' as [s0 B'|a s0 b ps0 Ba P Bb]; subst; [reflexivity|]. exfalso. eapply Not; [eassumption|]. eassumption.
  - inversion H' as [s1 B'|a' s1 b' ps1 Ba' P' Bb' E]; subst.
    + exfalso. eapply Not; [eassumption|]. eassumption.
    + apply gap_unique in E as [_ E]; [|exact Ba'|exact Ba|apply head_starts; eapply pars_head; exact P'|apply head_starts; eapply pars_head; exact P].
      symmetry in E. exact (pars_unique _ _ P _ _ _ _ P' Bb Bb' E).
Qed.

Lemma pars_word w g s ps : Word w -> Blank g -> g <> [] -> line_feeds g <= 1 -> Paragraphs s ps ->
  exists ps', Paragraphs (w ++ g ++ s) ps'.
Proof.
  intros W B N C H. destruct H as [s ws H|s ws h t ps H B' C' H'].
  - exists [w :: ws]. constructor. now constructor.
  - exists ((w :: ws) :: ps).
    replace (w ++ g ++ s ++ h ++ t) with ((w ++ g ++ s) ++ h ++ t) by now rewrite <- !app_assoc. constructor; auto. now constructor.
Qed.
Lemma pars_total r : Starts r -> r <> [] -> exists s ps b, r = s ++ b /\ Paragraphs s ps /\ Blank b.
Proof.
  remember (length r) as n eqn:En. revert r En. induction n as [n IH] using lt_wf_ind; intros r En S N.
  set (w := take_while Nonwhite r). set (x := drop_while Nonwhite r).
  set (g := take_while is_ascii_whitespace x). set (t := drop_while is_ascii_whitespace x).
  assert (Er : r = w ++ x) by (symmetry; apply take_drop_while). assert (Ex : x = g ++ t) by (symmetry; apply take_drop_while).
  assert (W : Word w).
  { split.
    - unfold w. destruct r as [|c r]; [congruence|]. cbn [take_while]. unfold Nonwhite at 1. rewrite (S c r eq_refl). discriminate.
    - eapply Forall_impl; [|apply take_while_all]. intros c Hc. apply not_white. unfold Nonwhite in Hc. now destruct (is_ascii_whitespace c). }
  assert (B : Blank g) by (eapply Forall_impl; [|apply take_while_all]; intros c; apply white_iff).
  assert (Sg : Starts t) by (intros c r' E; unfold t in E; now apply drop_while_head in E).
  destruct t as [|c t'] eqn:Et.
  - exists w, [[w]], g. split; [now rewrite Er, Ex, app_nil_r|]. split; [constructor; now constructor|exact B].
  - assert (Ng : g <> []).
    { intros Eg. rewrite Eg in Ex. cbn [app] in Ex. unfold x in Ex. apply drop_while_head in Ex. unfold Nonwhite in Ex.
      rewrite (Sg c t' eq_refl) in Ex. discriminate Ex. }
    destruct (IH (length (c :: t'))) with (r := c :: t') as (s & ps & b & E & P & Bb); [|reflexivity|exact Sg|discriminate|].
    { rewrite En, Er, Ex, !app_length. destruct W as [W _]. destruct w; [congruence|]. cbn [length]. lia. }
    destruct (Nat.le_gt_cases 2 (line_feeds g)) as [C|C].
    + exists (w ++ g ++ s), ([w] :: ps), b. split; [rewrite Er, Ex, E; now rewrite <- !app_assoc|]. split; [|exact Bb].
      constructor; auto. now constructor.
    + destruct (pars_word w g s ps W B Ng ltac:(lia) P) as [ps' P']. exists (w ++ g ++ s), ps', b.
      split; [rewrite Er, Ex, E; now rewrite <- !app_assoc|]. split; [exact P'|exact Bb].
Qed.
Lemma laid_total s : exists ps, Laid s ps.
Proof.
  rewrite <- (take_drop_while is_ascii_whitespace s).
  assert (B : Blank (take_while is_ascii_whitespace s)) by (eapply Forall_impl; [|apply take_while_all]; intros c; apply white_iff).
  destruct (drop_while is_ascii_whitespace s) as [|c r] eqn:E; [exists []; rewrite app_nil_r; now constructor|].
  destruct (pars_total (c :: r)) as (t & ps & b & Et & P & Bb); [|discriminate|].
  - intros c' r' [= <- <-]. now apply drop_while_head in E.
  - exists ps. rewrite Et. now constructor.
Qed.

Lemma opens_dec b : Opens b \/ ~ Opens b.
Proof.
  destruct b as [|c b] using rev_ind; [left; now left|]. rewrite opens_snoc.
  destruct (N.eq_dec c 40) as [->|N1]; [tauto|]. destruct (N.eq_dec c 61) as [->|N2]; [tauto|].
  destruct (N.eq_dec c 62) as [->|N3]; [|right; tauto].
  destruct b as [|d b _] using rev_ind; [left; right; split; [reflexivity|]; intros [a E]; now destruct a|].
  destruct (N.eq_dec d 45) as [->|N4].
  - right. intros [[H|H] | [_ H]]; try discriminate H. apply H. now exists b.
  - left. right. split; [reflexivity|]. intros [a E]. apply snoc_inj in E as [_ E]. congruence.
Qed.
Lemma typeset_total w : forall b, exists u, Typeset b w u.
Proof.
  remember (length w) as n eqn:En. revert w En. induction n as [n IH] using lt_wf_ind; intros w En b.
  destruct w as [|c w]; [exists []; constructor|].
  assert (Next : forall b, exists u, Typeset b w u) by (intros b'; apply (IH (length w)); [rewrite En; cbn; lia|reflexivity]).
  assert (Q : In c (lit "'""|") \/ ~ In c (lit "'""|")) by (destruct (in_dec N.eq_dec c (lit "'""|")); auto).
  destruct Q as [Q|Q].
  - destruct (opens_dec b) as [O|O]; cbn in Q; destruct Q as [<- | [<- | [<- | []]]].
    + destruct (Next (b ++ [39%N])) as [u H]. exists (8216%N :: u). apply ts_open; cbn; auto.
    + destruct (Next (b ++ [34%N])) as [u H]. exists (8220%N :: u). apply ts_open; cbn; auto.
    + destruct (Next (b ++ lit "|")) as [u H]. exists (8288%N :: u). now apply (ts_joiner b w u).
    + destruct (Next (b ++ [39%N])) as [u H]. exists (8217%N :: u). apply ts_close; cbn; auto.
    + destruct (Next (b ++ [34%N])) as [u H]. exists (8221%N :: u). apply ts_close; cbn; auto.
    + destruct (Next (b ++ lit "|")) as [u H]. exists (8288%N :: u). now apply (ts_joiner b w u).
  - destruct (M_Tokenizer.starts_with (lit "...") (c :: w)) eqn:D.
    + apply P_Tokenizer.starts_with_inv in D as [t E]. rewrite E. destruct (IH (length t)) with (w := t) (b := b ++ lit "...") as [u H]; [|reflexivity|].
      { rewrite En, E. rewrite app_length. cbn. lia. }
      exists (8230%N :: u). now constructor.
    + destruct (Next (b ++ [c])) as [u H]. exists (c :: u). apply ts_copy; [exact Q| |exact H].
      intros [t E]. unfold M_Tokenizer.starts_with in D. rewrite E in D. rewrite (proj2 (strip_prefix_spec _ _ t) eq_refl) in D. discriminate D.
Qed.
Lemma typeset_fun b w u : Typeset b w u -> forall v, Typeset b w v -> u = v.
Proof.
  assert (Dot : forall w, StartsWith (lit "...") (lit "..." ++ w)) by (intros w'; now exists w').
  assert (Q : forall q o x y : N, In (q, o) [(39, x); (34, y)]%N -> In q (lit "'""|") /\ q <> 46%N /\ q <> 124%N).
  { intros q o x y I. cbn in I |- *. destruct I as [[= <- <-] | [[= <- <-] | []]]; (split; [tauto|split; discriminate]). }
  assert (Same : forall q o o' x y : N, In (q, o) [(39, x); (34, y)]%N -> In (q, o') [(39, x); (34, y)]%N -> o = o').
  { intros q o o' x y I J. cbn in I, J. destruct I as [[= <- <-] | [[= <- <-] | []]]; destruct J as [J | [J | []]]; injection J; congruence. }
  induction 1 as [b|b q o w u O I T IH|b q o w u O I T IH|b w u T IH|b w u T IH|b c w u N S T IH]; intros v H.
  - now inversion H.
  - destruct (Q _ _ _ _ I) as (Q1 & Q2 & Q3).
    inversion H as [|b' q' o' w' u' O' I' T'|b' q' o' w' u' O' I' T'|b' w' u' T'|b' w' u' T'|b' c' w' u' N' S' T']; subst;
      try contradiction.
    f_equal; [eapply Same; eassumption|now apply IH].
  - destruct (Q _ _ _ _ I) as (Q1 & Q2 & Q3).
    inversion H as [|b' q' o' w' u' O' I' T'|b' q' o' w' u' O' I' T'|b' w' u' T'|b' w' u' T'|b' c' w' u' N' S' T']; subst;
      try contradiction.
    f_equal; [eapply Same; eassumption|now apply IH].
  - inversion H as [|b' q' o' w' u' O' I' T'|b' q' o' w' u' O' I' T'|b' w' u' T'|b' w' u' T'|b' c' w' u' N' S' T']; subst.
    + destruct (Q _ _ _ _ I') as (_ & Q2 & _). now contradiction Q2.
    + destruct (Q _ _ _ _ I') as (_ & Q2 & _). now contradiction Q2.
    + f_equal. now apply IH.
    + exfalso. apply S'. exact (Dot w).
  - inversion H as [|b' q' o' w' u' O' I' T'|b' q' o' w' u' O' I' T'|b' w' u' T'|b' w' u' T'|b' c' w' u' N' S' T']; subst.
    + destruct (Q _ _ _ _ I') as (_ & _ & Q3). now contradiction Q3.
    + destruct (Q _ _ _ _ I') as (_ & _ & Q3). now contradiction Q3.
    + f_equal. now apply IH.
    + exfalso. apply N'. cbn. tauto.
  - inversion H as [|b' q' o' w' u' O' I' T'|b' q' o' w' u' O' I' T'|b' w' u' T'|b' w' u' T'|b' c' w' u' N' S' T']; subst.
    + exfalso. apply N. now destruct (Q _ _ _ _ I').
    + exfalso. apply N. now destruct (Q _ _ _ _ I').
    + exfalso. apply S. exact (Dot w').
    + exfalso. apply N. cbn. tauto.
    + f_equal. now apply IH.
Qed.
Lemma written_unique w : exists t, Written w t /\ forall t', Written w t' -> t' = t.
Proof.
  destruct (typeset_total w []) as [u T]. exists (substitutions u). split; [exists u; split; [exact T|apply substituted_ok]|].
  intros t' (u' & T' & S). rewrite (typeset_fun _ _ _ T _ T'). symmetry. now apply substitutions_spec.
Qed.
Lemma typeset_same w : forall b, (forall c, In c w -> ~ In c (lit "'""|")) -> ~ Contains (lit "...") w -> Typeset b w w.
Proof.
  induction w as [|c w IH]; intros b N C; [constructor|]. apply ts_copy.
  - apply N. now left.
  - intros [r E]. apply C. exists [], r. exact E.
  - apply IH; [intros x I; apply N; now right|]. intros (x & y & E). apply C. exists (c :: x), y. cbn [app]. now f_equal.
Qed.
Lemma written_same w : (forall c, In c w -> ~ In c (lit "'""|")) -> ~ Contains (lit "...") w ->
  (forall p r, Documented p r -> ~ Contains p w) -> Written w w.
Proof.
  intros N C D. exists w. split; [now apply typeset_same|]. apply substitutions_spec. now apply unchanged.
Qed.
