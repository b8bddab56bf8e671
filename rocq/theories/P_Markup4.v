(** Proofs about markup: the syntax tree of elements and pages. *)
From Verif Require Import Base BaseFacts M_Text M_Names M_TagInfo M_TextSubs M_Token M_Tokenizer M_TokenText M_Types M_Diag M_Ast.
From Verif Require Import S_Front P_Tokenizer P_Escape S_TextSubs P_TextSubs S_Grammar S_Prose P_Prose P_ProseLex S_Markup P_Markup1 P_Markup2 P_Markup3.

(** ** Void tags *)
Lemma void_facts n : In n void_tags -> LowerName [] n /\ is_self_closing n = true.
Proof.
  intros H. split.
  - assert (F : Forall (LowerName []) void_tags).
    { unfold void_tags. cbn [List.map]. repeat constructor; eexists; eexists; (split; [reflexivity|]); (split; [cbv; split; discriminate|]); cbn [list_ascii_of_string map];
        repeat (apply Forall_cons; [left; cbv; split; discriminate|]); apply Forall_nil. }
    rewrite Forall_forall in F. now apply F.
  - assert (F : forallb is_self_closing void_tags = true) by reflexivity. rewrite forallb_forall in F. now apply F.
Qed.
Lemma self_closing_void n others : is_self_closing n = true -> LowerName others n -> In n void_tags.
Proof.
  unfold is_self_closing. intros H (c & l & En & Hc & _). apply mem_In in H.
  assert (F : forallb (fun m => str_eqb m (lit "!DOCTYPE") || existsb (str_eqb m) void_tags) self_closing_names = true) by reflexivity.
  rewrite forallb_forall in F. apply F in H. apply orb_true_iff in H as [E | H].
  - apply str_eqb_eq in E. rewrite En in E. injection E as -> _. vm_compute in Hc. exfalso. destruct Hc as [X _]. now apply X.
  - apply existsb_exists in H as (x & I & E). apply str_eqb_eq in E. now subst x.
Qed.
(** Content is written for tags that are not void. *)
Lemma holds_not_void n c : Holds n c -> ~ In n void_tags.
Proof.
  intros H V.
  assert (F : forall l, forallb (fun m => negb (existsb (str_eqb m) void_tags)) l = true -> ~ In n l).
  { intros l F I. rewrite forallb_forall in F. apply F, negb_true_iff in I. assert (existsb (str_eqb n) void_tags = true); [|congruence].
    apply existsb_exists. exists n. split; [exact V|]. now apply str_eqb_eq. }
  destruct H as [[I | I] _|ns items I1 I2 _]; [revert I; now apply F..|].
  assert (G : forallb (fun x => forallb (fun m => negb (existsb (str_eqb m) void_tags)) (List.map lit (fst x))) item_tags = true) by reflexivity.
  rewrite forallb_forall in G. apply G in I1. cbn [fst] in I1. now apply F in I2.
Qed.

(** ** White space around content *)
Lemma els_trim c ns : ElsNodes c ns -> exists l w, ns = l ++ w /\ Forall WhiteNode w /\ (forall l' n, l = l' ++ [n] -> ~ WhiteNode n) /\ ElsNodes c l.
Proof.
  induction 1 as [|n ps ns G H IH|p e ps ns E H IH].
  - exists [], []. split; [reflexivity|]. split; [constructor|]. split; [intros l' n E; now destruct l'|constructor].
  - destruct IH as (l & w & -> & Fw & Nl & El). destruct l as [|x l].
    + exists [], (n :: w). split; [reflexivity|]. split; [constructor; [destruct G as [-> | ->]; exact I|exact Fw]|]. split; [intros l' m E; now destruct l'|exact El].
    + exists (n :: x :: l), w. split; [reflexivity|]. split; [exact Fw|]. split; [|now constructor]. intros l' m E. destruct l' as [|y l']; [discriminate E|].
      injection E as <- E. now apply (Nl l').
  - destruct IH as (l & w & -> & Fw & Nl & El). exists (AExpr e :: l), w. split; [reflexivity|]. split; [exact Fw|]. split; [|now constructor].
    intros l' m E'. destruct l' as [|y l']; [injection E' as <- ->; now intros []|]. injection E' as <- E'. now apply (Nl l').
Qed.
Lemma run_last ps ns : RunNodes ps ns -> forall l n, ns = l ++ [n] -> WhiteNode n -> exists l' p, ps = l' ++ [p] /\ WhitePiece p.
Proof.
  assert (T : forall {A} (x : A) ns l n, x :: ns = l ++ [n] -> (l = [] /\ ns = [] /\ x = n) \/ exists l', l = x :: l' /\ ns = l' ++ [n]).
  { intros A x ns0 l n E. destruct l as [|y l]; [injection E as -> ->; now left|]. injection E as <- E. right. now exists l. }
  induction 1 as [|c ps ns H IH|w ps ns Lw H IH|ps ns H IH|p e ps ns E H _ IH]; intros l n En Wn.
  - now destruct l.
  - apply T in En as [(-> & -> & <-) | (l' & -> & En)].
    + exists [], (Char c). inversion H; subst. split; [reflexivity|]. exists c. split; [reflexivity|]. cbn in Wn |- *. intuition.
    + destruct (IH l' n En Wn) as (l0 & p & -> & Wp). exists (Char c :: l0), p. auto.
  - apply T in En as [(-> & -> & <-) | (l' & -> & En)]; [destruct Wn|].
    destruct (IH l' n En Wn) as (l0 & p & -> & Wp). exists (List.map Char w ++ l0), p. now rewrite <- app_assoc.
  - apply T in En as [(-> & -> & <-) | (l' & -> & En)].
    + exists [], (Char 32%N). inversion H; subst. split; [reflexivity|]. exists 32%N. split; [reflexivity|now left].
    + destruct (IH l' n En Wn) as (l0 & p & -> & Wp). exists (Char 32%N :: l0), p. auto.
  - apply T in En as [(-> & -> & <-) | (l' & -> & En)]; [destruct Wn|].
    destruct (IH l' n En Wn) as (l0 & p' & -> & Wp). exists (p :: l0), p'. auto.
Qed.
Lemma run_trim c ns : RunNodes c ns -> NoWhiteEnds c -> Trimmed ns ns.
Proof.
  intros R [_ N]. rewrite <- (app_nil_r ns) at 1. constructor; [constructor|]. intros l' n E W.
  destruct (run_last c ns R l' n E W) as (l0 & p & Ep & Wp). now apply (N p l0).
Qed.
Definition strip (ns : list node) : list node := match ns with AWhitespace :: r | AParagraphBreak :: r => r | _ => ns end.
Lemma els_strip c ns : ElsNodes c ns -> ElsNodes c (strip ns).
Proof. intros H. destruct H as [|n ps ns [-> | ->] H|p e ps ns E H]; try exact H; now constructor. Qed.
Lemma run_first c ns n : RunNodes c (n :: ns) -> GapNode n -> ~ NoWhiteEnds c.
Proof.
  intros R G [N _]. destruct G as [-> | ->]; inversion R; subst. apply (N (Char 32%N) ps eq_refl). exists 32%N. split; [reflexivity|now left].
Qed.

Lemma run_strip c ns : RunNodes c ns -> NoWhiteEnds c -> strip ns = ns.
Proof.
  intros R N. destruct ns as [|n ns]; [reflexivity|]. destruct n; try reflexivity; exfalso; (eapply run_first; [exact R| |exact N]); [now left|now right].
Qed.
Definition Stop (l : tokens) : Prop := ~ Next (fun t => Textual t /\ ~ Is LAngle t) l.
Definition Closing (close : token -> Prop) : Prop := forall t, close t -> Is CloseTag t.
Lemma stop_kind t l k : Is k t -> k = LAngle \/ In k [Escape; Whitespace; Newline; CloseTag] -> Stop (t :: l).
Proof.
  intros K I. unfold Stop. rewrite next_cons. intros [[s T] N]. unfold Is in *. rewrite K in N. destruct I as [-> | I]; [now apply N|].
  assert (X : forall k, Is k t -> ~ In k [Escape; Whitespace; Newline; CloseTag] \/ False -> False).
  { intros k' E' [Nk | []]. unfold Is in E'. apply Nk. rewrite <- E', K. exact I. }
  destruct T as [t T|t T|t T|t T|t T|t T|t T].
  1: { rewrite K in T. destruct I as [<-|[<-|[<-|[<-|[]]]]]; cbn in T; intuition discriminate. }
  all: apply (X _ T); left; cbn; intuition discriminate.
Qed.
Lemma spelled_nonempty c e : Spelled c e -> e <> [].
Proof. intros H E. destruct (spelled_head c e H) as [r ->]. discriminate E. Qed.
Lemma element_head p e : Element p e -> exists c l r, e = 60%N :: c :: l ++ r /\ (97 <= c <= 122)%N.
Proof.
  intros H. assert (G : exists n r, LowerName [] n /\ e = lit "<" ++ n ++ r).
  { destruct H as [n attrs a V A|n attrs a c s L I A R W|n attrs a c s L Ho A R]; eexists; eexists; (split; [|reflexivity]); auto. now apply void_facts. }
  destruct G as (n & r & (c & l & -> & Hc & _) & ->). exists c, l, r. auto.
Qed.
Lemma run_nil ps : Run ps [] -> ps = [].
Proof.
  intros H. inversion H as [|c e ps' s' S R E1 E2|w ps' s' [N F] B R E1 E2|ps' s' B R E1 E2|p e ps' s' El Il R E1 E2]; subst; try reflexivity.
  - apply app_eq_nil in E2 as [E _]. now apply spelled_nonempty in S.
  - destruct (app_eq_nil _ _ E2) as [-> ->]. now contradiction N.
  - apply app_eq_nil in E2 as [E _]. apply element_head in El as (c & l & r & -> & _). discriminate E.
Qed.
Lemma run_head ps s : Run ps s -> ~ StartsLetter s -> forall rest, NoIdent rest -> NoIdent (s ++ rest).
Proof.
  intros H N rest Nr c r E. destruct H as [|c0 e ps s S R|w ps s [Nw F] B R|ps s B R|p e ps s El Il R].
  - now apply (Nr c r).
  - destruct (spelled_head _ _ S) as [r0 ->]. injection E as <- _. reflexivity.
  - exfalso. apply N. destruct w as [|x w]; [contradiction|]. inversion F; subst. now exists x, (w ++ s).
  - injection E as <- _. reflexivity.
  - apply element_head in El as (x & l & r0 & -> & _). injection E as <- _. reflexivity.
Qed.
Lemma element_white p e rest : Element p e -> NoWhite (e ++ rest).
Proof. intros H c r E. apply element_head in H as (x & l & r0 & -> & _). injection E as <- _. reflexivity. Qed.

Section Grammar.
  Variables (src : str) (decode : str -> str) (escape : str -> str).
  Notation Nodes := (Nodes src decode escape). Notation Node := (Node src decode escape). Notation Tag := (Tag src decode escape).
  Notation Attr := (Attr src decode escape).
  Definition GA (toks : list token) (ns : list node) : Prop := forall close l rest ns', Closing close -> Nodes close l rest ns' -> Nodes close (toks ++ l) rest (ns ++ ns').
  Definition GR (toks : list token) (ns : list node) : Prop := forall close l rest ns', Closing close -> Stop l -> Nodes close l rest ns' -> Nodes close (toks ++ l) rest (ns ++ ns').
  Definition GRun (ps : list piece) (s : str) (toks : list token) : Prop := exists ns, RunNodes ps ns /\ GR toks ns /\ (~ StartsLetter s -> forall l, Stop l -> Stop (toks ++ l)).
  Definition GEls (ps : list piece) (toks : list token) : Prop := exists ns, ElsNodes ps ns /\ GA toks ns.
  Definition GEl (p : piece) (toks : list token) : Prop := exists x, ElNode p x /\ exists t r, toks = t :: r /\ Is LAngle t /\ forall l, Node (toks ++ l) l (AExpr x).
  Lemma one_node (close : token -> Prop) t a rest n ns k l : Closing close -> Is k t -> k <> CloseTag -> Node (t :: l) a n -> Nodes close a rest ns -> Nodes close (t :: l) rest (n :: ns).
  Proof. intros C K N H Ns. eapply ns_more; [|exact H|exact Ns]. intros X. apply C in X. unfold Is in *. congruence. Qed.
  Lemma gap_ga g : Blank g -> g <> [] -> Reading g NoWhite (fun toks => exists t n, toks = [t] /\ White t /\ GapNode n /\ n = gap_node g /\ GA toks [n]).
  Proof.
    intros B N. eapply reading_weaken; [exact (reading_gap g B N)|auto|]. intros l (t & -> & K & _). unfold gap_kind in K.
    unfold gap_node. destruct (2 <=? line_feeds g).
    - exists t, AParagraphBreak. split; [reflexivity|]. split; [right; exact K|]. split; [now right|]. split; [reflexivity|].
      intros close l rest ns C H'. eapply one_node; [exact C|exact K|discriminate|now apply n_break|exact H'].
    - exists t, AWhitespace. split; [reflexivity|]. split; [left; exact K|]. split; [now left|]. split; [reflexivity|].
      intros close l rest ns C H'. eapply one_node; [exact C|exact K|discriminate|now apply n_white|exact H'].
  Qed.
  (** Opening tags *)
  Definition GOpen (n : str) (attrs : list (str * str)) (toks : list token) : Prop := exists a t k more c, toks = t :: k :: more /\ Is LAngle t /\ Is Name k /\
    tk_text k = n /\ AttrNodes attrs a /\ tk_text c = lit ">" /\ forall l, Juxtaposed RAngle Attr (more ++ l) l a c.
  Lemma reading_open n attrs a : LowerName [] n -> Attributes attrs a -> Reading (lit "<" ++ n ++ a ++ lit ">") Any (GOpen n attrs).
  Proof.
    intros L A. destruct (lower_ident _ _ L) as (c & l & En & Hc & S & F); [now intros d []|].
    assert (R1 : Reading (a ++ lit ">") Any (fun toks => exists at', AttrNodes attrs at' /\ exists c, tk_text c = lit ">" /\ forall l, Juxtaposed RAngle Attr (toks ++ l) l at' c)).
    { eapply reading_app; [exact (reading_attributes src decode escape attrs a A)|exact reading_rangle|intros rest _; eexists; reflexivity|].
      intros x y (at' & AN & G) (t & -> & K & E). exists at'. split; [exact AN|]. exists t. split; [exact E|]. intros l0. rewrite <- app_assoc. now apply G. }
    assert (R2 : Reading (n ++ a ++ lit ">") Any (fun toks => exists at' k more c, toks = k :: more /\ Is Name k /\ tk_text k = n /\ AttrNodes attrs at' /\ tk_text c = lit ">" /\
      forall l, Juxtaposed RAngle Attr (more ++ l) l at' c)).
    { eapply reading_app; [apply (reading_name n []); [exact L|now intros d []]|exact R1| |].
      - intros rest _. rewrite <- app_assoc. apply (att_head attrs); [exact A|]. eexists. reflexivity.
      - intros x y (k & -> & K & E) (at' & AN & c' & E' & G). exists at', k, y, c'. auto 10. }
    eapply reading_app; [exact reading_langle|exact R2| |].
    - intros rest _. exists c, (l ++ (a ++ lit ">") ++ rest). split; [subst n; now rewrite <- app_assoc|exact S].
    - intros x y (t & -> & K & _) (at' & k & more & c' & -> & Kk & Ek & AN & E' & G). exists at', t, k, more, c'. auto 10.
  Qed.
  (** Nodes behind leading white space *)
  Lemma skip_body close b rest ns : Closing close -> Nodes close b rest ns -> exists b', Skip b b' /\ Nodes close b' rest (strip ns).
  Proof.
    intros C H. destruct b as [|t l].
    - exists []. split; [apply skip_none; intros (t & l & E & _); discriminate E|]. inversion H; subst. exact H.
    - destruct (kind_eq_dec (tk_kind t) Whitespace) as [K|K1]; [|destruct (kind_eq_dec (tk_kind t) Newline) as [K|K2]].
      3: { exists (t :: l). split; [apply skip_none; rewrite next_cons; unfold White; tauto|].
           inversion H as [? ? Hc|? ? ? a ? n ns0 Nc Hn Hns]; subst; [exact H|].
           cbn [strip]. destruct n; try exact H; inversion Hn; subst; unfold Is in *; congruence. }
      all: inversion H as [? ? Hc|? ? ? a ? n ns0 Nc Hn Hns]; subst; [specialize (Hc t l eq_refl); apply C in Hc; unfold Is in Hc; congruence|].
      all: exists l; assert (a = l /\ GapNode n) as [-> G];
        [|split; [apply skip_white; unfold White; tauto|]; destruct G as [-> | ->]; exact Hns].
      all: inversion Hn; subst; unfold Is in *; try congruence.
      all: try (split; [reflexivity|]; (now left) || (now right)).
      all: repeat match goal with H : In (tk_kind _) _ |- _ => rewrite K in H; cbn in H; exfalso; intuition discriminate end.
      all: exfalso; match goal with H : TextOf _ _ |- _ => inversion H as [? T|? T|? T|? T|? T|? T|? T]; subst; unfold Is in T; try congruence; rewrite K in T; cbn in T; intuition discriminate end.
  Qed.
  Lemma not_anonymous n : LowerName [] n -> n <> n_anonymous.
  Proof. intros (c & l & -> & Hc & _) E. injection E as -> _. destruct Hc as [X _]. vm_compute in X. now apply X. Qed.
  Lemma nodup_attrs attrs a : AttrNodes attrs a -> NoDup (attr_names a) /\ attr_names a = List.map fst attrs.
  Proof.
    induction 1 as [|n v ps l r L N V A [IH E]]; [split; [constructor|reflexivity]|]. cbn [attr_names flat_map List.map fst app].
    unfold attr_names in *. rewrite E in *. split; [now constructor|reflexivity].
  Qed.
  Lemma void_element n attrs a : In n void_tags -> Attributes attrs a -> Reading (lit "<" ++ n ++ a ++ lit ">") Any (GEl (Elem n attrs [])).
  Proof.
    intros V A. destruct (void_facts n V) as [L Sc]. eapply reading_weaken; [exact (reading_open n attrs a L A)|auto|].
    intros toks (at' & t & k & more & c & -> & Kt & Kk & Ek & AN & Ec & J). exists (ETag (TNLit n) at' []). split; [now constructor|].
    exists t, (k :: more). split; [reflexivity|]. split; [exact Kt|]. intros l. cbn [app].
    eapply n_tag; [exact Kt|exists k, (more ++ l); split; [reflexivity|now left]|].
    replace n with (lowered n) by (apply (lowered_lower [] n L); intros d []).
    eapply (tag_empty _ _ _ (k :: more ++ l) (more ++ l) l (TNLit (lowered n)) (lowered n)); [|apply J|exact (proj1 (nodup_attrs attrs at' AN))|right; now rewrite (lowered_lower [] n L) by now intros d []].
    rewrite <- Ek. constructor; [exact Kk|now constructor].
  Qed.
  (** An element, given its content *)
  Lemma full_element n attrs a s (G : list token -> Prop) p : LowerName [] n -> ~ In n void_tags -> Attributes attrs a -> Reading s (fun rest => exists r, rest = 60%N :: r) G ->
    (forall at' toks ct, AttrNodes attrs at' -> G toks -> CloseFor n ct -> exists ns', ElNode p (ETag (TNLit n) at' ns') /\
      forall l, exists b' ns, Skip (toks ++ ct :: l) b' /\ Nodes (CloseFor n) b' (ct :: l) ns /\ Trimmed ns ns') ->
    Reading (lit "<" ++ n ++ a ++ lit ">" ++ s ++ lit "</" ++ n ++ lit ">") Any (GEl p).
  Proof.
    intros L V A R H.
    assert (R1 : Reading (s ++ lit "</" ++ n ++ lit ">") Any (fun toks => exists x ct, toks = x ++ [ct] /\ G x /\ Is CloseTag ct /\ tk_text ct = lit "</" ++ n ++ lit ">")).
    { eapply reading_app; [exact R|exact (reading_close n L)|intros rest _; eexists; reflexivity|]. intros x y Gx (t & -> & K & E). exists x, t. auto. }
    replace (lit "<" ++ n ++ a ++ lit ">" ++ s ++ lit "</" ++ n ++ lit ">") with ((lit "<" ++ n ++ a ++ lit ">") ++ s ++ lit "</" ++ n ++ lit ">") by now rewrite <- !app_assoc.
    eapply reading_app; [exact (reading_open n attrs a L A)|exact R1|exact (fun _ _ => I)|].
    intros x y (at' & t & k & more & c & -> & Kt & Kk & Ek & AN & Ec & J) (toks & ct & -> & Gt & Kc & Et).
    assert (CF : CloseFor n ct). { split; [exact Kc|]. right. split; [now apply not_anonymous|]. exists n. auto. }
    destruct (H at' toks ct AN Gt CF) as (ns' & El & Hl). exists (ETag (TNLit n) at' ns'). split; [exact El|].
    exists t, (k :: more ++ toks ++ [ct]). split; [reflexivity|]. split; [exact Kt|]. intros l. cbn [app]. rewrite <- !app_assoc. cbn [app].
    destruct (Hl l) as (b' & ns & Sk & Nb & Tr).
    assert (Elow : lowered n = n) by (apply (lowered_lower [] n L); intros d []).
    eapply n_tag; [exact Kt|exists k, (more ++ toks ++ ct :: l); split; [reflexivity|now left]|].
    assert (TN : TagName src decode escape (k :: more ++ toks ++ ct :: l) (more ++ toks ++ ct :: l) (TNLit (lowered n)) (lowered n)) by (rewrite <- Ek; constructor; [exact Kk|now constructor]).
    rewrite Elow in TN.
    eapply (tag_full _ _ _ _ _ (toks ++ ct :: l) b' ct l (TNLit n) n at' c ns ns'); [exact TN|apply J|exact (proj1 (nodup_attrs attrs at' AN))| | |exact Sk|exact Nb|exact Tr|exact CF].
    - rewrite Ec. discriminate.
    - destruct (is_self_closing n) eqn:E; [|reflexivity]. exfalso. now apply V, (self_closing_void n []).
  Qed.
End Grammar.
