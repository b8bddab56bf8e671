(** Proofs about markup: its syntax tree, by the rules of the grammar. *)
From Verif Require Import Base BaseFacts M_Text M_Names M_TagInfo M_TextSubs M_Token M_Tokenizer M_TokenText M_Types M_Diag M_Ast.
From Verif Require Import S_Front P_Tokenizer P_Escape S_TextSubs P_TextSubs S_Grammar S_Prose P_Prose P_ProseLex S_Markup P_Markup1 P_Markup2.

Lemma next_cons (P : token -> Prop) t l : Next P (t :: l) <-> P t.
Proof. split; [intros (t' & l' & [= <- <-] & H); exact H|]. intros H. now exists t, l. Qed.
Lemma skip_kind t l k : Is k t -> k <> Whitespace -> k <> Newline -> Skip (t :: l) (t :: l).
Proof. intros K N1 N2. apply skip_none. rewrite next_cons. unfold Is in K. unfold White. rewrite K. intuition congruence. Qed.
Definition StartsLetter (s : str) : Prop := exists c r, s = c :: r /\ Letter c.
Lemma not_letter s : (forall c r, s = c :: r -> ~ Letter c) -> ~ StartsLetter s.
Proof. intros H (c & r & E & L). now apply (H c r). Qed.
Lemma letter_cont c : is_ident_cont c = false -> ~ Letter c.
Proof. intros E L. apply letter_ident in L as [_ L]. congruence. Qed.
(** What texts may start with, behind a word *)
Lemma spelled_head c e : Spelled c e -> exists r, e = 92%N :: r.
Proof. destruct 1; eexists; reflexivity. Qed.

Section Grammar.
  Variables (src : str) (decode : str -> str) (escape : str -> str).
  Notation Nodes := (Nodes src decode escape). Notation Node := (Node src decode escape). Notation Tag := (Tag src decode escape).
  Notation Attr := (Attr src decode escape).
  (** ** Values *)
  Definition GVal (v s : str) (toks : list token) : Prop := exists parts, ValParts v parts /\
    forall acc, (StartsLetter s -> forall b x e, acc <> b ++ [(TPLit x, e)]) -> forall t d l, Is (Quote QDouble d) t ->
      Parts decode QDouble acc 0 (toks ++ t :: l) l (List.map fst acc ++ parts).
  Definition AtQuote (rest : str) : Prop := exists r, rest = 34%N :: r.
  Lemma value_head v s rest : Value v s -> ~ StartsLetter s -> AtQuote rest -> NoIdent (s ++ rest).
  Proof.
    intros V N [r0 ->] c r E. destruct V as [|c0 e v s H V|w v s [Nw F] B V|v s B V].
    - injection E as <- _. reflexivity.
    - destruct (spelled_head _ _ H) as [r1 ->]. injection E as <- _. reflexivity.
    - exfalso. apply N. destruct w as [|x w]; [now contradiction Nw|]. inversion F; subst. now exists x, (w ++ s).
    - injection E as <- _. reflexivity.
  Qed.
  Lemma lit_last acc (x : template_part * nat) b s e : acc ++ [x] = b ++ [(TPLit s, e)] -> x = (TPLit s, e).
  Proof. intros E. now apply app_inj_tail in E. Qed.
  Lemma reading_value v s : Value v s -> Reading s AtQuote (GVal v s).
  Proof.
    induction 1 as [|c e v s H V IH|w v s Lw B V IH|v s B V IH].
    - apply reading_nil. exists []. split; [constructor|]. intros acc _ t d l K. rewrite app_nil_r. now apply (parts_end _ _ acc t d).
    - eapply reading_app; [exact (reading_escape c e H)|exact IH|exact (fun _ _ => I)|].
      intros a b (t0 & -> & K & M) (parts & P & G). exists (TPChar c :: parts). split; [now constructor|]. intros acc _ t d l Q.
      cbn [app]. eapply parts_escape; [exact K|exact M|].
      specialize (G (acc ++ [(TPChar c, 0)])). rewrite map_app, <- app_assoc in G. apply (G) with (d := d); [|exact Q].
      intros _ b0 x e0 E. apply lit_last in E. discriminate E.
    - eapply reading_app; [exact (reading_word w Lw)|exact IH| |].
      { intros rest R. apply (value_head v); auto. now apply not_letter. }
      intros a b (t0 & k & -> & K & E & Ik) (parts & P & G). exists (TPLit w :: parts). split; [now constructor|]. intros acc A t d l Q.
      cbn [app].
      assert (A' : forall b x e, acc <> b ++ [(TPLit x, e)]).
      { apply A. destruct Lw as [Nw F]. destruct w as [|x w]; [now contradiction Nw|]. inversion F; subst. now exists x, (w ++ s). }
      assert (K' : tk_kind t0 = k) by exact K.
      eapply parts_literal; [| |apply al_new|].
      + rewrite K'. destruct Ik as [<- | [<- | [<- | []]]]; cbn; intuition discriminate.
      + intros d'. unfold Is. rewrite K'. destruct Ik as [<- | [<- | [<- | []]]]; discriminate.
      + intros before x. apply A'.
      + specialize (G (acc ++ [(TPLit (tk_text t0), tk_end t0)])). rewrite map_app, <- app_assoc, E in G. rewrite E. apply G with (d := d); [|exact Q].
        intros S. exfalso. now apply (not_letter s).
    - eapply (reading_app [32%N]); [apply (reading_gap [32%N]); [repeat constructor|discriminate]|exact IH| |].
      { intros rest [r0 ->] c r E. destruct s as [|x s]; [injection E as <- _; reflexivity|]. injection E as <- _. specialize (B x s eq_refl).
        destruct (is_ascii_whitespace x) eqn:W; [|reflexivity]. exfalso. apply B. now apply white_iff. }
      intros a b (t0 & -> & K & _) (parts & P & G). exists (TPWhitespace :: parts). split; [now constructor|]. intros acc _ t d l Q.
      cbn [app]. eapply parts_space; [exact K|].
      specialize (G (acc ++ [(TPWhitespace, 0)])). rewrite map_app, <- app_assoc in G. apply G with (d := d); [|exact Q].
      intros _ b0 x e0 E. apply lit_last in E. discriminate E.
  Qed.
  (** ** Attributes *)
  Definition AtTagEnd (rest : str) : Prop := exists r, rest = 62%N :: r.
  Definition GAtt (attrs : list (str * str)) (toks : list token) : Prop := exists a, AttrNodes attrs a /\
    forall t l, Is RAngle t -> Juxtaposed RAngle Attr (toks ++ t :: l) l a t /\ exists m, Skip (toks ++ t :: l) m /\ Juxtaposed RAngle Attr m l a t.
  Lemma att_head attrs s rest : Attributes attrs s -> AtTagEnd rest -> NoIdent (s ++ rest).
  Proof. intros H [r0 ->] c r E. destruct H; injection E as <- _; reflexivity. Qed.
  Lemma reading_attributes attrs s : Attributes attrs s -> Reading s AtTagEnd (GAtt attrs).
  Proof.
    induction 1 as [|n v s l r L N V A IH].
    - apply reading_nil. exists []. split; [constructor|]. intros t l K. cbn [app].
      assert (Skip (t :: l) (t :: l)) by (eapply skip_kind; [exact K|discriminate|discriminate]).
      assert (Juxtaposed RAngle Attr (t :: l) l [] t) by (eapply jux_end; eassumption). split; [assumption|]. now exists (t :: l).
    - assert (O : forall d, In d (lit "_") -> d = 95%N) by (intros d [<- | []]; reflexivity).
      assert (R1 : Reading (lit """" ++ r) AtTagEnd (fun toks => exists t d l', toks = t :: l' /\ Is (Quote QDouble d) t /\ GAtt l l')).
      { eapply reading_app; [exact reading_quote|exact IH|exact (fun _ _ => I)|]. intros a b (t & d & -> & Q) G. exists t, d, b. auto. }
      assert (R2 : Reading (s ++ lit """" ++ r) AtTagEnd (fun toks => exists ps, ValParts v ps /\ exists a, AttrNodes l a /\
        forall t x, Is RAngle t -> exists m m', Parts decode QDouble [] 0 (toks ++ t :: x) m ps /\ Skip m m' /\ Juxtaposed RAngle Attr m' x a t)).
      { eapply reading_app; [exact (reading_value v s V)|exact R1|intros rest _; eexists; reflexivity|].
        intros a b (ps & P & G) (t & d & l' & -> & Q & (at' & AN & GA)). exists ps. split; [exact P|]. exists at'. split; [exact AN|].
        intros u x K. destruct (GA u x K) as [_ (m & S & J)]. exists (l' ++ u :: x), m. split; [|split; assumption].
        specialize (G []). cbn [List.map app] in G. rewrite <- app_assoc. cbn [app]. apply G with (d := d); [|exact Q]. intros _ b0 y e E. now destruct b0. }
      assert (R3 : Reading (lit """" ++ s ++ lit """" ++ r) AtTagEnd (fun toks => exists a e ps, AttrNodes l a /\ ValParts v ps /\ e = ETemplate ps /\
        forall t x, Is RAngle t -> exists m m', SExpr src decode escape (toks ++ t :: x) m e /\ Skip m m' /\ Juxtaposed RAngle Attr m' x a t)).
      { eapply reading_app; [exact reading_quote|exact R2|exact (fun _ _ => I)|]. intros a b (t & d & -> & Q) (ps & P & (at' & AN & G)).
        exists at', (ETemplate ps), ps. split; [exact AN|]. split; [exact P|]. split; [reflexivity|]. intros u x K. destruct (G u x K) as (m & m' & G1 & G2 & G3).
        exists m, m'. split; [|auto]. cbn [app]. eapply s_expr; [eapply skip_kind; [exact Q|discriminate|discriminate]|].
        eapply x_template; [exact Q|exact G1]. }
      assert (R4 : Reading (lit "=" ++ lit """" ++ s ++ lit """" ++ r) AtTagEnd (fun toks => exists a e ps, AttrNodes l a /\ ValParts v ps /\ e = ETemplate ps /\
        exists q g, toks = q :: g /\ Is Equals q /\ forall t x, Is RAngle t -> exists m m', SExpr src decode escape (g ++ t :: x) m e /\ Skip m m' /\ Juxtaposed RAngle Attr m' x a t)).
      { eapply reading_app; [exact reading_equals|exact R3|exact (fun _ _ => I)|]. intros a b (t & -> & Q & _) (at' & e & ps & AN & P & -> & G).
        exists at', (ETemplate ps), ps. split; [exact AN|]. split; [exact P|]. split; [reflexivity|]. exists t, b. auto. }
      assert (R5 : Reading (n ++ lit "=" ++ lit """" ++ s ++ lit """" ++ r) AtTagEnd (fun toks => exists a ps, AttrNodes l a /\ ValParts v ps /\
        exists k g, toks = k :: g /\ Is Name k /\ forall t x, Is RAngle t -> Juxtaposed RAngle Attr (toks ++ t :: x) x (TAttr n false (Some (ETemplate ps)) :: a) t)).
      { eapply reading_app; [exact (reading_name n _ L O)|exact R4|intros rest _ c y [= <- _]; reflexivity|].
        intros a b (k & -> & K & E) (at' & e & ps & AN & P & -> & (q & g & -> & Q & G)). exists at', ps. split; [exact AN|]. split; [exact P|].
        exists k, (q :: g). split; [reflexivity|]. split; [exact K|]. intros t x Kt. cbn [app]. destruct (G t x Kt) as (m & m' & G1 & G2 & G3).
        assert (Sk : forall l, Skip (k :: l) (k :: l)) by (intros; eapply skip_kind; [exact K|discriminate|discriminate]).
        assert (Sq : forall l, Skip (q :: l) (q :: l)) by (intros; eapply skip_kind; [exact Q|discriminate|discriminate]).
        eapply jux_more; [apply Sk| | |exact G2|exact G3].
        { rewrite next_cons. unfold Is in *. rewrite K. discriminate. }
        eapply at_value; [apply Sk| |apply Sk|exact K| |apply Sq| |apply Sq|exact Q|exact G1].
        - constructor. rewrite next_cons. unfold SpreadTok, Is in *. rewrite K. intuition discriminate.
        - rewrite <- E. now constructor.
        - constructor. rewrite next_cons. unfold Is in *. rewrite Q. discriminate. }
      change (lit " " ++ n ++ lit "=""" ++ s ++ lit """" ++ r) with ([32%N] ++ n ++ lit "=" ++ lit """" ++ s ++ lit """" ++ r).
      eapply reading_app; [apply (reading_gap [32%N]); [repeat constructor|discriminate]|exact R5| |].
      { intros rest _. destruct L as (c & y & -> & Hc & _). intros c' r' [= <- _]. destruct (is_ascii_whitespace c) eqn:W; [|reflexivity].
        exfalso. apply white_iff in W. cbn in W. destruct W as [<-|[<-|[<-|[<-|[<-|[]]]]]]; lia. }
      intros a b (w & -> & K & _) (at' & ps & AN & P & (k & g & -> & Kk & G)). exists (TAttr n false (Some (ETemplate ps)) :: at').
      split; [now constructor|]. intros t x Kt. specialize (G t x Kt).
      assert (Sw : Skip ([w] ++ (k :: g) ++ t :: x) ((k :: g) ++ t :: x)) by (apply skip_white; left; exact K).
      rewrite <- app_assoc. split; [|eexists; split; [exact Sw|exact G]].
      inversion G as [? ? ? S I E1|? a0 b0 c0 ? ? ? ? S1 N1 It S2 J E1 E2]; subst.
      assert (a0 = (k :: g) ++ t :: x) as ->.
      { cbn [app] in S1. inversion S1 as [? ? W E1 E2|]; subst; [|reflexivity]. exfalso. unfold White, Is in *. rewrite Kk in W. intuition discriminate. }
      eapply jux_more; [exact Sw|exact N1|exact It|exact S2|exact J].
  Qed.
End Grammar.
