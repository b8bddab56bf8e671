(** Proofs about markup: the syntax tree of pages. *)
From Verif Require Import Base BaseFacts M_Text M_Names M_TagInfo M_TextSubs M_Token M_Tokenizer M_TokenText M_Types M_Diag M_Ast.
From Verif Require Import S_Front P_Tokenizer P_Escape S_TextSubs P_TextSubs S_Grammar S_Prose P_Prose P_ProseLex S_Markup P_Markup1 P_Markup2 P_Markup3 P_Markup4.

Definition LastOk (ps : list piece) : Prop := forall p l, ps = l ++ [p] -> ~ WhitePiece p.
Lemma last_cons ps qs : LastOk (ps ++ qs) -> LastOk qs.
Proof. intros H p l E. apply (H p (ps ++ l)). now rewrite E, app_assoc. Qed.
Definition AtTag (rest : str) : Prop := exists r, rest = 60%N :: r.
Section Grammar.
  Variables (src : str) (decode : str -> str) (escape : str -> str).
  Notation Nodes := (Nodes src decode escape). Notation Node := (Node src decode escape).
  Notation GRun := (GRun src decode escape). Notation GEls := (GEls src decode escape). Notation GEl := (GEl src decode escape).
  Lemma els_head ps s rest : Elements ps s -> AtTag rest -> forall c r, s ++ rest = c :: r -> c = 60%N \/ WhiteChar c.
  Proof.
    intros H [r0 ->] c r E. destruct H as [g B|g p e ps s B El Els].
    - destruct B as [|x g W B]; [injection E as <- _; now left|injection E as <- _; now right].
    - destruct B as [|x g W B]; [|injection E as <- _; now right]. apply element_head in El as (x & l & r1 & -> & _). injection E as <- _. now left.
  Qed.
  Lemma element_node p toks : GEl p toks -> exists x, ElNode p x /\ GA src decode escape toks [AExpr x] /\ forall l, Stop (toks ++ l).
  Proof.
    intros (x & El & (t & r & -> & K & H)). exists x. split; [exact El|]. split.
    - intros close l rest ns C N. eapply one_node; [exact C|exact K|discriminate|apply H|exact N].
    - intros l. eapply stop_kind; [exact K|now left].
  Qed.
  Lemma reading_markup :
    (forall ps s, Run ps s -> LastOk ps -> Reading s NoIdent (GRun ps s)) /\
    (forall ps s, Elements ps s -> Reading s AtTag (GEls ps)) /\
    (forall p s, Element p s -> Reading s Any (GEl p)).
  Proof.
    apply markup_mut.
    - intros _. apply reading_nil. exists []. split; [constructor|]. split; [intros close l rest ns' _ _ H; exact H|auto].
    - intros c e ps s Sp R IH L. eapply reading_app; [exact (reading_escape c e Sp)|apply IH, (last_cons [Char c] ps L)|exact (fun _ _ => I)|].
      intros a b (t & -> & K & M) (ns & Rn & G & _). exists (AChar c :: ns). split; [now constructor|]. split.
      + intros close l rest ns' C St N. cbn [app]. eapply one_node; [exact C|exact K|discriminate|now apply n_escape|now apply G].
      + intros _ l _. cbn [app]. eapply stop_kind; [exact K|cbn; tauto].
    - intros w ps s Lw B R IH L. eapply reading_app; [exact (reading_word w Lw)|apply IH, (last_cons _ ps L)| |].
      { intros rest N. apply (run_head ps s R); [now apply not_letter|exact N]. }
      intros a b (t & k & -> & K & E & Ik) (ns & Rn & G & Sb). exists (AText w :: ns). split; [now constructor|]. split.
      + intros close l rest ns' C St N. cbn [app].
        assert (K2 : k <> CloseTag /\ k <> LAngle /\ In k text_kinds) by (destruct Ik as [<- | [<- | [<- | []]]]; (split; [discriminate|split; [discriminate|cbn; tauto]])).
        destruct K2 as (K2 & K3 & K4).
        eapply one_node; [exact C|exact K|exact K2| |exact (G close l rest ns' C St N)].
        eapply (n_text _ _ _ t (b ++ l) (b ++ l) w []).
        * unfold Is in *. congruence.
        * rewrite <- E. apply to_plain. unfold Is in K. now rewrite K.
        * apply tr_end. apply Sb; [now apply not_letter|exact St].
        * rewrite app_nil_r. now apply letters_same.
      + intros N. exfalso. apply N. destruct Lw as [Nw F]. destruct w as [|x w]; [now contradiction Nw|]. inversion F; subst. now exists x, (w ++ s).
    - intros ps s B R IH L.
      assert (Ns : s <> []). { intros ->. apply run_nil in R. subst ps. apply (L (Char 32%N) []); [reflexivity|]. exists 32%N. split; [reflexivity|now left]. }
      eapply (reading_app [32%N]); [apply (gap_ga src decode escape [32%N]); [repeat constructor|discriminate]|apply IH, (last_cons [Char 32%N] ps L)| |].
      { intros rest _ c r E. destruct s as [|x s]; [now contradiction Ns|]. injection E as <- _. specialize (B x s eq_refl).
        destruct (is_ascii_whitespace x) eqn:W; [|reflexivity]. exfalso. apply B. now apply white_iff. }
      intros a b (t & n & -> & W & Gn & -> & GA1) (ns & Rn & G & Sb). change (gap_node [32%N]) with AWhitespace in GA1.
      exists (AWhitespace :: ns). split; [now constructor|]. split.
      + intros close l rest ns' C St N. rewrite <- app_assoc. apply (GA1 close _ rest (ns ++ ns') C). now apply G.
      + intros _ l _. cbn [app]. destruct W as [K|K]; (eapply stop_kind; [exact K|cbn; tauto]).
    - intros p e ps s El IHe Il R IH L. eapply reading_app; [exact IHe|apply IH, (last_cons [p] ps L)|exact (fun _ _ => I)|].
      intros a b Ga (ns & Rn & G & Sb). destruct (element_node p a Ga) as (x & En & GA1 & Sa). exists (AExpr x :: ns). split; [now constructor|]. split.
      + intros close l rest ns' C St N. rewrite <- app_assoc. apply (GA1 close _ rest (ns ++ ns') C). now apply G.
      + intros _ l _. rewrite <- app_assoc. apply Sa.
    - intros g B. destruct g as [|c g].
      + apply reading_nil. exists []. split; [constructor|]. intros close l rest ns' _ H. exact H.
      + eapply reading_weaken; [apply (gap_ga src decode escape (c :: g) B); discriminate| |].
        * intros rest [r ->] x y [= <- _]. reflexivity.
        * intros l (t & n & -> & W & Gn & _ & G). exists [n]. split; [apply en_gap; [exact Gn|constructor]|exact G].
    - intros g p e ps s B El IHe Els IH.
      assert (R1 : Reading (e ++ s) AtTag (fun toks => exists x ns, ElNode p x /\ ElsNodes ps ns /\ GA src decode escape toks (AExpr x :: ns))).
      { eapply reading_app; [exact IHe|exact IH|exact (fun _ _ => I)|].
        intros a b Ga (ns & En & G). destruct (element_node p a Ga) as (x & Enx & GA1 & _). exists x, ns. split; [exact Enx|]. split; [exact En|].
        intros close l rest ns' C N. rewrite <- app_assoc. apply (GA1 close _ rest (ns ++ ns') C). now apply G. }
      destruct g as [|c g].
      + eapply reading_weaken; [exact R1|auto|]. intros l (x & ns & E1 & E2 & G). exists (AExpr x :: ns). split; [now constructor|exact G].
      + eapply reading_app; [apply (gap_ga src decode escape (c :: g) B); discriminate|exact R1| |].
        * intros rest _. rewrite <- app_assoc. now apply (element_white p).
        * intros a b (t & n & -> & W & Gn & _ & G1) (x & ns & E1 & E2 & G). exists (n :: AExpr x :: ns). split; [constructor; [exact Gn|now constructor]|].
          intros close l rest ns' C N. rewrite <- app_assoc. apply (G1 close _ rest (AExpr x :: ns ++ ns') C). apply (G close l rest ns' C N).
    - intros n attrs a V A. now apply void_element.
    - intros n attrs a c s L I A R IH W. apply (full_element src decode escape n attrs a s (GRun c s)); [exact L|now apply I|exact A| |].
      + eapply reading_weaken; [apply IH; exact (proj2 W)| |auto]. intros rest [r ->] x y [= <- _]. reflexivity.
      + intros at' toks ct AN (ns & Rn & G & _) CF. exists ns. split; [now constructor|]. intros l.
        assert (N : Nodes (CloseFor n) (toks ++ ct :: l) (ct :: l) ns).
        { rewrite <- (app_nil_r ns). apply G; [intros t H; apply H| |].
          - eapply stop_kind; [exact (proj1 CF)|cbn; tauto].
          - apply ns_end. now intros t l' [= <- <-]. }
        destruct (skip_body src decode escape (CloseFor n) _ _ _ (fun t H => proj1 H) N) as (b' & Sk & N'). rewrite (run_strip c) in N' by assumption.
        exists b', ns. split; [exact Sk|]. split; [exact N'|]. now apply (run_trim c).
    - intros n attrs a c s L H A Els IH. apply (full_element src decode escape n attrs a s (GEls c)); [exact L|now apply (holds_not_void n c)|exact A|exact IH|].
      intros at' toks ct AN (ns & En & G) CF. destruct (els_trim c (strip ns) (els_strip c ns En)) as (k & w & Ew & Fw & Nk & Ek).
      exists k. split; [now constructor|]. intros l.
      assert (N : Nodes (CloseFor n) (toks ++ ct :: l) (ct :: l) ns).
      { rewrite <- (app_nil_r ns). apply G; [intros t X; apply X|]. apply ns_end. now intros t l' [= <- <-]. }
      destruct (skip_body src decode escape (CloseFor n) _ _ _ (fun t X => proj1 X) N) as (b' & Sk & N'). rewrite Ew in N'.
      exists b', (k ++ w). split; [exact Sk|]. split; [exact N'|]. now constructor.
  Qed.
  (** ** Pages *)
  Definition OfPage (after : bool) (ps : list piece) (l : list token) : Prop :=
    Forall TokOk l /\ exists ns, PageNodes after ps ns /\ Nodes (fun _ => False) l [] ns /\ (after = true -> Stop l).
  Lemma page_head ps s : Page true ps s -> NoIdent s.
  Proof.
    intros H c r E. assert (W : forall g, Blank g -> forall c r, g = c :: r -> is_ident_cont c = false).
    { intros g B x y ->. inversion B as [|? ? Wx _]; subst. destruct Wx as [<-|[<-|[<-|[<-|[<-|[]]]]]]; reflexivity. }
    inversion H as [af g B E1 E2 E3|af g p e ps' s' B El Bl Pg E1 E2 E3|af g c0 e ps' s' B F Nc Ne R Pg E1 E2 E3]; subst.
    - eapply W; [exact B|reflexivity].
    - destruct g as [|x g]; [|injection E3 as <- _; eapply W; [exact B|reflexivity]]. apply element_head in El as (x & l & r1 & -> & _). injection E3 as <- _. reflexivity.
    - destruct g as [|x g]; [specialize (F eq_refl); cbn in F; lia|injection E3 as <- _; eapply W; [exact B|reflexivity]].
  Qed.
  (** behind a gap *)
  Lemma lexes_gap after ps g rest d : Blank g -> NoWhite rest -> (forall d', Lexes rest d' (OfPage (if 2 <=? line_feeds g then false else after) ps)) ->
    Lexes (g ++ rest) d (OfPage after ps).
  Proof.
    intros B N L. destruct g as [|c g]; [exact (L d)|].
    assert (Nb : c :: g <> []) by discriminate. pose proof (gap_ga src decode escape (c :: g) B Nb d rest _ N L) as H.
    intros fuel cur F. destruct (H fuel cur F) as (l & E & (toks & l' & -> & O & (t & n & -> & W & Gn & -> & G) & (O' & ns & Pn & Nn & St))).
    exists ([t] ++ l'). split; [exact E|]. split; [now apply Forall_app|]. exists (gap_node (c :: g) :: ns). split.
    - apply pg_gap; [exact Gn|]. unfold gap_node. destruct (2 <=? line_feeds (c :: g)); exact Pn.
    - split; [apply (G _ l' [] ns); [now intros ? []|exact Nn]|]. intros _. cbn [app]. destruct W as [K|K]; (eapply stop_kind; [exact K|cbn; tauto]).
  Qed.
  Lemma run_no_white c e rest : Run c e -> c <> [] -> NoWhiteEnds c -> NoWhite (e ++ rest).
  Proof.
    intros R Nc [W _] x r E. destruct R as [|c0 e ps s Sp R|w ps s [Nw F] B R|ps s B R|p e ps s El Il R]; [now contradiction Nc| | | |].
    - destruct (spelled_head _ _ Sp) as [r0 ->]. injection E as <- _. reflexivity.
    - destruct w as [|y w]; [now contradiction Nw|]. injection E as <- _. inversion F as [|? ? Ly _]; subst. now apply letter_ident in Ly as [Ly%ident_start_facts _].
    - exfalso. apply (W _ _ eq_refl). exists 32%N. split; [reflexivity|now left].
    - apply element_head in El as (y & l & r0 & -> & _). injection E as <- _. reflexivity.
  Qed.
  Lemma lexes_page after ps s : Page after ps s -> forall d, Lexes s d (OfPage after ps).
  Proof.
    destruct reading_markup as (RR & _ & RE).
    induction 1 as [after g B|after g p e ps s B El Bl Pg IH|after g c e ps s B F Nc Ne R Pg IH]; intros d.
    - rewrite <- (app_nil_r g). apply lexes_gap; [exact B|now intros ? ?|]. intros d'. apply lexes_nil. split; [constructor|]. exists [].
      split; [constructor|]. split; [apply ns_end; discriminate|]. intros _ (t & l & E & _). discriminate E.
    - apply lexes_gap; [exact B|now apply (element_white p)|]. intros d'. pose proof (RE p e El d' s _ I IH) as H.
      intros fuel cur Fu. destruct (H fuel cur Fu) as (l & E & (toks & l' & -> & O & Ge & (O' & ns & Pn & Nn & _))).
      destruct (element_node p toks Ge) as (x & En & G & St). exists (toks ++ l'). split; [exact E|]. split; [now apply Forall_app|].
      exists (AExpr x :: ns). split; [now apply pg_block|]. split; [apply (G _ l' [] ns); [now intros ? []|exact Nn]|]. intros _. apply St.
    - apply lexes_gap; [exact B|now apply (run_no_white c)|]. intros d'.
      replace (if 2 <=? line_feeds g then false else after) with false by (destruct after; [rewrite (proj2 (Nat.leb_le _ _) (F eq_refl))|destruct (2 <=? line_feeds g)]; reflexivity).
      pose proof (RR c e R (proj2 Ne) d' s _ (page_head ps s Pg) IH) as H.
      intros fuel cur Fu. destruct (H fuel cur Fu) as (l & E & (toks & l' & -> & O & (cs & Rn & G & _) & (O' & ns & Pn & Nn & St))).
      exists (toks ++ l'). split; [exact E|]. split; [now apply Forall_app|]. exists (cs ++ ns). split; [now apply pg_par|].
      split; [apply (G _ l' [] ns); [now intros ? []|now apply St|exact Nn]|]. discriminate.
  Qed.
  (** The document *)
  Lemma page_strip ps ns : PageNodes false ps ns -> PageNodes false ps (strip ns).
  Proof.
    intros H. inversion H as [|? n ? ns0 [-> | ->] H'|? p e ps0 ns0 En Bl H'|c cs ps0 ns0 Nc Ne Rn H' E1 E2]; subst; try exact H; try exact H'.
    replace (strip (cs ++ ns0)) with (cs ++ ns0); [exact H|].
    destruct cs as [|x cs]; [inversion Rn; subst; try now contradiction Nc|]. destruct x; try reflexivity; exfalso; (eapply run_first; [exact Rn| |exact Ne]); [now left|now right].
  Qed.
  Lemma page_trim after ps ns : PageNodes after ps ns -> exists l w, ns = l ++ w /\ Forall WhiteNode w /\ (forall l' n, l = l' ++ [n] -> ~ WhiteNode n) /\ PageNodes after ps l.
  Proof.
    induction 1 as [after|after n ps ns Gn H IH|after p e ps ns En Bl H IH|c cs ps ns Nc Ne Rn H IH].
    - exists [], []. split; [reflexivity|]. split; [constructor|]. split; [intros l' n E; now destruct l'|constructor].
    - destruct IH as (l & w & -> & Fw & Nl & El). destruct l as [|x l].
      + exists [], (n :: w). split; [reflexivity|]. split; [constructor; [destruct Gn as [-> | ->]; exact I|exact Fw]|]. split; [intros l' m E; now destruct l'|].
        inversion El; subst; [constructor|]. match goal with H : _ ++ _ = [] |- _ => apply app_eq_nil in H as [-> ->] end.
        match goal with H : RunNodes _ [] |- _ => inversion H; subst end. congruence.
      + exists (n :: x :: l), w. split; [reflexivity|]. split; [exact Fw|]. split; [|now constructor]. intros l' m E. destruct l' as [|y l']; [discriminate E|].
        injection E as <- E. now apply (Nl l').
    - destruct IH as (l & w & -> & Fw & Nl & El). exists (AExpr e :: l), w. split; [reflexivity|]. split; [exact Fw|]. split; [|now constructor].
      intros l' m E'. destruct l' as [|y l']; [injection E' as <- ->; now intros []|]. injection E' as <- E'. now apply (Nl l').
    - destruct IH as (l & w & -> & Fw & Nl & El). exists (cs ++ l), w. split; [now rewrite app_assoc|]. split; [exact Fw|]. split; [|now constructor].
      intros l' m E W. destruct l as [|x l] using rev_ind.
      + rewrite app_nil_r in E. destruct (run_last c cs Rn l' m E W) as (q & p & -> & Wp). now apply (proj2 Ne p q).
      + rewrite app_assoc in E. apply app_inj_tail in E as [_ ->]. now apply (Nl l m).
  Qed.
  Theorem page_document ps s : Page false ps s -> forall d, Lexes s d (fun l => Forall TokOk l /\ exists ns, PageNodes false ps ns /\ Document src decode escape l ns).
  Proof.
    intros H d fuel cur F. destruct (lexes_page false ps s H d fuel cur F) as (l & E & (O & ns & Pn & Nn & _)). exists l. split; [exact E|]. split; [exact O|].
    destruct (skip_body src decode escape (fun _ => False) l [] ns (fun t H => match H with end) Nn) as (b' & Sk & N').
    destruct (page_trim false ps (strip ns) (page_strip ps ns Pn)) as (k & w & Ew & Fw & Nk & Pk). exists k. split; [exact Pk|].
    exists b', (strip ns). split; [exact Sk|]. split; [exact N'|]. rewrite Ew. now constructor.
  Qed.
End Grammar.
