(** Texts laid out alike have alike tokens (C81). *)
From Verif Require Import Base BaseFacts M_Token M_Tokenizer M_Diag M_Queue M_Ast M_Parser S_Text S_Front S_Layout S_Lex P_Tokenizer P_Front P_Lex P_LexStrip P_Layout P_Layout2 P_Layout3.

Lemma blen_pos s : s <> [] -> 0 < blen s.
Proof. destruct s as [|c s]; [congruence|]. intros _. cbn [blen]. unfold utf8_len. repeat destruct (N.ltb _ _); lia. Qed.
Lemma lexes_tiles pos dir src toks errs : Lexes pos dir src toks errs -> Tiles pos src toks.
Proof.
  induction 1 as [|pos dir text rest k c next toks errs L A _ IH]; [constructor|].
  apply (Tiles_cons pos (Token k text pos (pos + blen text))); cbn [tk_text tk_start tk_end]; auto. eapply lexeme_nonempty; eauto.
Qed.
Lemma lexes_blank pos dir src toks errs : Lexes pos dir src toks errs -> Forall (fun t => white_kind (tk_kind t) = true -> blank (tk_text t)) toks.
Proof.
  assert (Z : forall w, Forall S_Lex.White w -> w <> [] -> blank w).
  { intros [|c w] F N; [congruence|]. inversion F as [|? ? W]; subst. exists c, w. split; [reflexivity|]. unfold S_Lex.White in W. lia. }
  induction 1 as [|pos dir text rest k c next toks errs L A _ IH]; constructor; [|exact IH]. cbn [tk_kind tk_text]. intro W.
  assert (N := lexeme_nonempty _ _ _ _ _ L). inversion L; subst; try discriminate W; auto;
  try (match goal with H : NameKind _ _ |- _ => inversion H; subst; discriminate W end);
  try (match goal with H : AtKind _ _ |- _ => inversion H; subst; discriminate W end);
  try (match goal with H : In _ punctuation |- _ => cbn in H; repeat (destruct H as [H|H]; [injection H as <- <- <-; discriminate W|]); destruct H end).
Qed.
Lemma tiles_from pos s l u : Tiles pos s l -> In u l -> pos <= tk_start u.
Proof. induction 1 as [|pos tok rest toks N E F T IH]; [intros []|]. intros [<-|I]; [lia|]. specialize (IH I). lia. Qed.
Lemma tiles_after pos s t l u : Tiles pos s (t :: l) -> In u l -> pos < tk_start u.
Proof.
  intros T I. inversion T as [|? ? ? ? N E F T1]; subst. pose proof (tiles_from _ _ _ _ T1 I). pose proof (blen_pos _ N). lia.
Qed.
Lemma tiles_split a : forall pos s b, Tiles pos s (a ++ b) -> exists pos' s', Tiles pos' s' b.
Proof. induction a as [|t a IH]; intros pos s b T; [eauto|]. inversion T; subst. eapply IH; eauto. Qed.
Lemma tiles_tail pos s t l : Tiles pos s (t :: l) -> exists s', Tiles (tk_end t) s' l. Proof. intro T. inversion T; subst. eauto. Qed.
Lemma tiles_head pos s t l : Tiles pos s (t :: l) -> tk_start t = pos. Proof. intro T. now inversion T. Qed.
Lemma gap_in g r u : GapToken g r -> In u r -> In u g /\ white_kind (tk_kind u) = true.
Proof. intros [? C|b t a C K N|b t a K N] I; cbn in I; [destruct I| |]; destruct I as [<-|[]]; rewrite K; (split; [apply in_elt|reflexivity]). Qed.
Lemma stripped_in l out u : Stripped l out -> In u out -> In u l.
Proof.
  induction 1 as [gap r Hg G|gap r t rest out Hg G Sig St IH]; intro I; [eapply gap_in; eauto|].
  apply in_app_or in I as [I|[<-|I]]; [apply in_or_app; left; eapply gap_in; eauto|apply in_elt|]. apply in_or_app. right. right. auto.
Qed.
Lemma significant_dec t : Significant t \/ ~ Significant t.
Proof. unfold Significant. destruct (tk_kind t); intuition congruence. Qed.
Lemma significant_not_white t : Significant t -> white_kind (tk_kind t) = false. Proof. intros (A & B & C). destruct (tk_kind t); congruence || reflexivity. Qed.
Lemma stripped_gap g out : Gap g -> Stripped g out -> GapToken g out.
Proof.
  intros G H. inversion H as [gap r Hg GT|gap r t rest o Hg GT Sig St]; subst; [assumption|]. exfalso. unfold Gap in G. apply Forall_app in G as [_ G]. inversion G; contradiction.
Qed.
Lemma stripped_more g t l out : Gap g -> Significant t -> Stripped (g ++ t :: l) out -> exists r o, out = r ++ t :: o /\ GapToken g r /\ Stripped l o.
Proof.
  intros G Sig H. inversion H as [gap r Hg GT E|gap r t' rest o Hg GT Sig' St E]; subst.
  - exfalso. apply Forall_app in Hg as [_ Hg]. inversion Hg; contradiction.
  - destruct (split_first (fun t => ~ Significant t) gap t' rest g t l) as (-> & -> & ->); auto. eauto.
Qed.
Lemma gap_same g g' r r' : SameGap g g' -> GapToken g r -> GapToken g' r' ->
  r = [] /\ r' = [] \/ exists w w', r = [w] /\ r' = [w'] /\ In w g /\ In w' g' /\ white_kind (tk_kind w) = true /\ tk_kind w' = tk_kind w.
Proof.
  intros (G & G' & _ & W & N) H H'.
  assert (CW : forall g, Forall (fun t => tk_kind t = Comment) g -> ~ AnyWhite g).
  { intros h F (t & I & Wt). rewrite Forall_forall in F. specialize (F _ I). unfold White in Wt. destruct Wt; congruence. }
  assert (NN : forall b t a, Forall (fun t => tk_kind t = Comment) b -> tk_kind t = Whitespace -> Forall (fun t => tk_kind t <> Newline) a -> ~ Has Newline (b ++ t :: a)).
  { intros b t a C K F (u & I & E). rewrite Forall_forall in C, F. apply in_app_or in I as [I|[<-|I]]; [specialize (C _ I)| |specialize (F _ I)]; congruence. }
  assert (HW : forall b t a, tk_kind t = Whitespace \/ tk_kind t = Newline -> AnyWhite (b ++ t :: a)) by (intros b t a K; exists t; split; [apply in_elt|exact K]).
  assert (HN : forall b t a, tk_kind t = Newline -> Has Newline (b ++ t :: a)) by (intros b t a K; exists t; split; [apply in_elt|exact K]).
  destruct H as [g C|b t a C K F|b t a K F], H' as [g' C'|b' t' a' C' K' F'|b' t' a' K' F'].
  - now left.
  - exfalso. apply (CW _ C). apply W. apply HW. now left.
  - exfalso. apply (CW _ C). apply W. apply HW. now right.
  - exfalso. apply (CW _ C'). apply W. apply HW. now left.
  - right. exists t, t'. rewrite K, K'. repeat split; apply in_elt.
  - exfalso. apply (NN _ _ _ C K F). apply N. now apply HN.
  - exfalso. apply (CW _ C'). apply W. apply HW. now right.
  - exfalso. apply (NN _ _ _ C' K' F'). apply N. now apply HN.
  - right. exists t, t'. rewrite K, K'. repeat split; apply in_elt.
Qed.
Lemma relaid_adj l l' : Relaid l l' -> forall pos s pos' s' out out', Tiles pos s l -> Tiles pos' s' l' -> Stripped l out -> Stripped l' out' ->
  Forall2 (adj pos pos') out out'.
Proof.
  induction 1 as [g g' SG|g g' t t' l l' SG Sig K X R IH]; intros pos s pos' s' out out' T T' St St'.
  - assert (SG0 := SG). destruct SG as (G & G' & SG). apply stripped_gap in St; [|exact G]. apply stripped_gap in St'; [|exact G'].
    destruct (gap_same _ _ _ _ SG0 St St') as [[-> ->]|(w & w' & -> & -> & _ & _ & Ww & _)]; [constructor|]. constructor; [|constructor]. intro Z. congruence.
  - assert (SG0 := SG). destruct SG as (G & G' & SG). assert (Sig' : Significant t') by (unfold Significant in *; rewrite <- K; exact Sig).
    apply stripped_more in St as (r & o & -> & GT & St); auto. apply stripped_more in St' as (r' & o' & -> & GT' & St'); auto.
    apply Forall2_app.
    + destruct (gap_same _ _ _ _ SG0 GT GT') as [[-> ->]|(w & w' & -> & -> & _ & _ & Ww & _)]; [constructor|]. constructor; [|constructor]. intro Z. congruence.
    + assert (A : forall g t l pos s, Tiles pos s (g ++ t :: l) -> (pos =? tk_start t) = match g with [] => true | _ => false end).
      { clear. intros [|x g] t l pos s T; cbn [app] in T.
        - rewrite (tiles_head _ _ _ _ T). apply Nat.eqb_refl.
        - apply Nat.eqb_neq. pose proof (tiles_after _ _ _ _ t T (in_elt _ _ _)). lia. }
      constructor.
      * intro W. rewrite (A _ _ _ _ _ T), (A _ _ _ _ _ T'). destruct SG as [[SG1 SG2] _]. destruct g, g'; auto; [specialize (SG1 eq_refl)|specialize (SG2 eq_refl)]; discriminate.
      * assert (B : forall g t l pos s u, Tiles pos s (g ++ t :: l) -> In u l -> (pos =? tk_start u) = false).
        { clear. intros g t l pos s u T I. apply Nat.eqb_neq. destruct g as [|x g]; cbn [app] in T; [pose proof (tiles_after _ _ _ _ u T I); lia|].
          assert (J : In u (g ++ t :: l)) by (apply in_or_app; right; now right). pose proof (tiles_after _ _ _ _ u T J). lia. }
        apply tiles_split in T as TT. destruct TT as (p1 & s1 & T1). apply tiles_tail in T1 as [s2 T2].
        apply tiles_split in T' as TT. destruct TT as (p1' & s1' & T1'). apply tiles_tail in T1' as [s2' T2'].
        specialize (IH _ _ _ _ _ _ T2 T2' St St').
        assert (I1 : forall u, In u o -> (pos =? tk_start u) = false) by (intros u I; eapply B; [exact T|]; eapply stripped_in; eauto).
        assert (I2 : forall u, In u o' -> (pos' =? tk_start u) = false) by (intros u I; eapply B; [exact T'|]; eapply stripped_in; eauto).
        clear -IH I1 I2. induction IH as [|u u' o o' H IHH IH]; [constructor|]. constructor.
        -- intros _. rewrite I1, I2; auto; now left.
        -- apply IH; intros; [apply I1|apply I2]; now right.
Qed.
Lemma relaid_toks l l' : Relaid l l' -> forall pos s pos' s' out out', Tiles pos s l -> Tiles pos' s' l' ->
  Forall (fun t => white_kind (tk_kind t) = true -> blank (tk_text t)) l -> Forall (fun t => white_kind (tk_kind t) = true -> blank (tk_text t)) l' ->
  Stripped l out -> Stripped l' out' -> Toks out out'.
Proof.
  assert (GW : forall (g g' r r' o o' : list token), SameGap g g' -> GapToken g r -> GapToken g' r' ->
     Forall (fun t => white_kind (tk_kind t) = true -> blank (tk_text t)) g -> Forall (fun t => white_kind (tk_kind t) = true -> blank (tk_text t)) g' -> Toks o o' -> Toks (r ++ o) (r' ++ o')).
  { intros g g' r r' o o' SG GT GT' B B' H. destruct (gap_same _ _ _ _ SG GT GT') as [[-> ->]|(w & w' & -> & -> & I & I' & W & K)]; [exact H|]. cbn [app].
    rewrite Forall_forall in B, B'. constructor; [|congruence|exact H]. split; [exact K|]. right. split; [exact W|]. split; [now apply B|apply B'; [exact I'|congruence]]. }
  induction 1 as [g g' SG|g g' t t' l l' SG Sig K X R IH]; intros pos s pos' s' out out' T T' B B' St St'.
  - assert (SG0 := SG). destruct SG as (G & G' & SG). apply stripped_gap in St; [|exact G]. apply stripped_gap in St'; [|exact G'].
    rewrite <- (app_nil_r out), <- (app_nil_r out'). eapply GW; eauto. constructor.
  - assert (SG0 := SG). destruct SG as (G & G' & SG). assert (Sig' : Significant t') by (unfold Significant in *; rewrite <- K; exact Sig).
    apply stripped_more in St as (r & o & -> & GT & St); auto. apply stripped_more in St' as (r' & o' & -> & GT' & St'); auto.
    apply Forall_app in B as [B1 B2], B' as [B1' B2']. inversion B2; inversion B2'; subst.
    apply tiles_split in T as (p1 & s1 & T1). apply tiles_tail in T1 as [s2 T2]. apply tiles_split in T' as (p1' & s1' & T1'). apply tiles_tail in T1' as [s2' T2'].
    eapply GW; eauto. constructor; [split; [now symmetry|left; now symmetry]|intros _; eapply relaid_adj; eauto|eapply IH; eauto].
Qed.
Lemma parse_relaid decode regex_ok src text text' toks toks' errs errs' :
  Uncut text -> Uncut text' ->
  Lexes 0 QLeft text toks errs -> Lexes 0 QLeft text' toks' errs' -> List.map fst errs = List.map fst errs' -> Relaid toks toks' ->
  parse decode regex_ok src text = parse decode regex_ok src text'.
Proof.
  intros C C' L L' E R.
  assert (Z : forall text toks errs, Uncut text -> Lexes 0 QLeft text toks errs -> exists out, tokenize text true = Ret (out, errs) /\ Stripped toks out).
  { clear. intros text toks errs C L. pose proof (tokenize_complete _ _ _ C L) as T.
    destruct (tokenize_both text false true) as [[out es'] T']; [eexists; eassumption|]. destruct (tokenize_stripped _ _ _ _ _ T T') as [St ->]. eauto. }
  destruct (Z _ _ _ C L) as (o & T & S). destruct (Z _ _ _ C' L') as (o' & T' & S').
  unfold parse. rewrite T, T'. cbn [obind fst snd].
  assert (D : List.map (fun e => SyntaxErr (fst e)) errs' = List.map (fun e => SyntaxErr (fst e)) errs) by (rewrite <- !(map_map fst SyntaxErr); now rewrite E).
  assert (H : S2 [] (PState o (List.map (fun e => SyntaxErr (fst e)) errs)) (PState o' (List.map (fun e => SyntaxErr (fst e)) errs'))).
  { split; [exact D|]. split; [|constructor]. cbn [ps_tokens]. eapply relaid_toks; [exact R|eapply lexes_tiles; eauto..|eapply lexes_blank; eauto|eapply lexes_blank; eauto|exact S|exact S']. }
  pose proof (r_root src decode regex_ok [] _ _ H) as K. destruct (parse_root _ _ _ _) as [a s|s| |], (parse_root _ _ _ (PState o' _)) as [a' s'|s'| |]; cbn in K; try contradiction; try reflexivity.
  - destruct K as [<- [-> _]]. reflexivity.
  - destruct K as [-> _]. reflexivity.
Qed.

(** A check that two token lists are laid out alike, for examples. *)
Fixpoint gap_split (l : list token) : list token * list token :=
  match l with [] => ([], []) | t :: l => if significant_b t then ([], t :: l) else let '(g, r) := gap_split l in (t :: g, r) end.
Definition gap_alike (g g' : list token) : bool :=
  Nat.eqb (Nat.min 1 (length g)) (Nat.min 1 (length g')) && Bool.eqb (existsb (fun t => kind_is_whitespace (tk_kind t)) g) (existsb (fun t => kind_is_whitespace (tk_kind t)) g') &&
  Bool.eqb (existsb (fun t => kind_eqb (tk_kind t) Newline) g) (existsb (fun t => kind_eqb (tk_kind t) Newline) g').
Fixpoint relaid_b (n : nat) (l l' : list token) : bool :=
  match n with 0 => false | S n =>
    let '(g, r) := gap_split l in let '(g', r') := gap_split l' in
    gap_alike g g' && match r, r' with
    | [], [] => true
    | t :: r, t' :: r' => kind_eqb (tk_kind t) (tk_kind t') && str_eqb (tk_text t) (tk_text t') && relaid_b n r r'
    | _, _ => false end
  end.
Lemma gap_split_spec l g r : gap_split l = (g, r) -> l = g ++ r /\ Gap g /\ match r with [] => True | t :: _ => Significant t end.
Proof.
  revert g r. induction l as [|t l IH]; intros g r; cbn [gap_split]; [intros [= <- <-]; repeat constructor|].
  destruct (significant_b t) eqn:E; [intros [= <- <-]; repeat split; [constructor|now apply significant_b_spec..]|].
  destruct (gap_split l) as [g1 r1]. intros [= <- <-]. destruct (IH _ _ eq_refl) as (-> & G & R). split; [reflexivity|]. split; [|exact R].
  constructor; [|exact G]. rewrite <- significant_b_spec. congruence.
Qed.
Lemma kind_eqb_eq a b : kind_eqb a b = true <-> a = b. Proof. unfold kind_eqb. destruct (kind_eq_dec a b); split; congruence. Qed.
Lemma gap_alike_spec g g' : Gap g -> Gap g' -> gap_alike g g' = true -> SameGap g g'.
Proof.
  intros G G' H. unfold gap_alike in H. apply andb_prop in H as [H C]. apply andb_prop in H as [A B]. apply Nat.eqb_eq in A. apply Bool.eqb_prop in B, C.
  assert (W : forall g, AnyWhite g <-> existsb (fun t => kind_is_whitespace (tk_kind t)) g = true).
  { intro h. rewrite existsb_exists. unfold AnyWhite, White, kind_is_whitespace. split; intros (t & I & K); exists t; (split; [exact I|]); rewrite orb_true_iff, !kind_eqb_eq in *; exact K. }
  assert (N : forall g, Has Newline g <-> existsb (fun t => kind_eqb (tk_kind t) Newline) g = true).
  { intro h. rewrite existsb_exists. unfold Has. split; intros (t & I & K); exists t; (split; [exact I|]); rewrite kind_eqb_eq in *; exact K. }
  split; [exact G|]. split; [exact G'|]. split; [destruct g, g'; cbn in A; (split; congruence)|]. rewrite !W, !N, B, C. tauto.
Qed.
Lemma relaid_check n : forall l l', relaid_b n l l' = true -> Relaid l l'.
Proof.
  induction n as [|n IH]; intros l l'; cbn [relaid_b]; [discriminate|]. destruct (gap_split l) as [g r] eqn:E, (gap_split l') as [g' r'] eqn:E'.
  destruct (gap_split_spec _ _ _ E) as (-> & G & S), (gap_split_spec _ _ _ E') as (-> & G' & S'). intro H. apply andb_prop in H as [A H].
  apply gap_alike_spec in A; auto. destruct r as [|t r], r' as [|t' r']; try discriminate; [rewrite !app_nil_r; now constructor|].
  apply andb_prop in H as [H R]. apply andb_prop in H as [K T]. apply kind_eqb_eq in K. apply str_eqb_eq in T. apply relaid_more; auto.
Qed.
