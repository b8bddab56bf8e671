(** Proofs for C75. *)
From Verif Require Import Base BaseFacts M_Text M_Names M_Html M_Token M_Tokenizer M_Diag M_SourceFile M_Highlight M_Syntect S_Html S_Text P_Text S_Native2 S_Highlight P_Highlight S_Syntect.

Lemma prefix_spec a : forall b, scope_prefix a b = true <-> exists rest, b = a ++ rest.
Proof.
  induction a as [|x a IH]; intros [|y b]; cbn.
  - split; [now exists []|auto].
  - split; [now exists (y :: b)|auto].
  - split; [discriminate|intros [r E]; discriminate].
  - rewrite andb_true_iff, IH, str_eqb_eq. split; [intros [-> [r ->]]; now exists r|]. intros [r [= -> ->]]. eauto.
Qed.
Lemma match_spec sel stack : does_match sel stack = true <-> InScope stack sel.
Proof.
  unfold does_match, InScope. rewrite existsb_exists. split.
  - intros (x & I & P). apply prefix_spec in P as [r ->]. eauto.
  - intros [r I]. exists (sel ++ r). split; [exact I|]. apply prefix_spec. eauto.
Qed.
Lemma match_not_spec sel ex stack : does_match_not sel ex stack = true <-> InScope stack sel /\ ~ InScope stack ex.
Proof. unfold does_match_not. rewrite andb_true_iff, negb_true_iff, <- !match_spec. destruct (does_match ex stack); intuition congruence. Qed.
Lemma white_spec s : is_whitespace s = true <-> Forall AsciiSpace s.
Proof.
  unfold is_whitespace. rewrite forallb_forall, Forall_forall.
  assert (E : forall c, is_ascii_whitespace c = true <-> AsciiSpace c).
  { intros c. unfold is_ascii_whitespace, AsciiSpace. rewrite !orb_true_iff, !N.eqb_eq. cbn. intuition congruence. }
  split; intros G c Hc; apply E; auto.
Qed.
Lemma left_spec s : str_eqb s (lit "(") || str_eqb s (lit "{") || str_eqb s (lit "[") = true <-> exists c d, Pair c d /\ s = [c].
Proof.
  rewrite !orb_true_iff, !str_eqb_eq. split.
  - intros [[-> | ->]| ->]; do 2 eexists; (split; [constructor|reflexivity]).
  - intros (c & d & [] & ->); auto.
Qed.
Lemma right_spec s : str_eqb s (lit ")") || str_eqb s (lit "}") || str_eqb s (lit "]") = true <-> exists c d, Pair c d /\ s = [d].
Proof.
  rewrite !orb_true_iff, !str_eqb_eq. split.
  - intros [[-> | ->]| ->]; do 2 eexists; (split; [constructor|reflexivity]).
  - intros (c & d & [] & ->); auto.
Qed.
Lemma keyword_spec s stack : is_identifier s &&
    (does_match [lit "keyword"] stack || does_match [lit "storage"; lit "modifier"] stack || does_match [lit "storage"; lit "type"] stack ||
     does_match [lit "variable"; lit "language"] stack) = true <->
  Identifier s /\ (InScope stack [lit "keyword"] \/ InScope stack [lit "storage"; lit "modifier"] \/ InScope stack [lit "storage"; lit "type"] \/
                      InScope stack [lit "variable"; lit "language"]).
Proof. rewrite andb_true_iff, !orb_true_iff, !match_spec, is_identifier_spec. tauto. Qed.

Lemma first_if (b : bool) (P : Prop) k x rules : (b = true <-> P) -> FirstRule rules x -> FirstRule ((P, k) :: rules) (if b then k else x).
Proof. intros E R. destruct b; [apply first_here; now apply E|]. apply first_later; [|exact R]. intro Z. apply E in Z. discriminate. Qed.
Lemma kind_ok s stack : KindIn s stack (token_kind_of s stack).
Proof.
  unfold KindIn, kind_rules, token_kind_of. cbv zeta.
  apply first_if; [apply white_spec|]. apply first_if; [apply match_not_spec|]. apply first_if; [apply match_spec|].
  apply first_if; [apply left_spec|]. apply first_if; [apply right_spec|]. do 5 (apply first_if; [apply match_spec|]).
  apply first_if; [apply keyword_spec|]. apply first_if; [apply match_not_spec|]. apply first_if; [apply match_spec|].
  apply first_if; [apply match_not_spec|]. do 2 (apply first_if; [apply match_spec|]). apply first_if; [apply is_identifier_spec|].
  now apply first_here.
Qed.
Lemma first_fun rules k : FirstRule rules k -> forall k', FirstRule rules k' -> k = k'.
Proof. induction 1; intros k0 H1; inversion H1; subst; try contradiction; auto. Qed.
Lemma kind_iff s stack k : token_kind_of s stack = k <-> KindIn s stack k.
Proof. split; [intros <-; apply kind_ok|]. intro K. eapply first_fun; [apply kind_ok|exact K]. Qed.
Lemma kind_proper s stack k : KindIn s stack k -> ProperChunk (s, k).
Proof.
  intro K. unfold KindIn, kind_rules in K. cbv zeta in K.
  repeat match goal with
  | K : FirstRule ((_, _) :: _) _ |- _ => inversion K; clear K; subst; [cbn; trivial|]
  | K : FirstRule [] _ |- _ => inversion K
  end.
  - match goal with P : exists c d, _ |- _ => destruct P as (c & d & P & ->) end. eauto.
  - match goal with P : exists c d, _ |- _ => destruct P as (c & d & P & ->) end. eauto.
Qed.

Definition kinds (ps : list piece) : list chunk := List.map (fun p => (fst p, token_kind_of (fst p) (snd p))) ps.
Lemma kinds_spec ps cs : Forall2 (fun p c => fst c = fst p /\ KindIn (fst p) (snd p) (snd c)) ps cs <-> cs = kinds ps.
Proof.
  split.
  - induction 1 as [|[s st] [s' k] ps cs [E K] _ IH]; [reflexivity|]. cbn in *. subst. apply kind_iff in K. now subst.
  - intros ->. induction ps as [|[s st] ps IH]; constructor; [|exact IH]. cbn. split; [reflexivity|apply kind_ok].
Qed.
Lemma cut_kinds ps : forall pos rs pre post line, CutAt pos ps rs -> pos = blen pre -> line = pre ++ flat_map fst ps ++ post ->
  Cut pos (kinds ps) (List.map (classify_range line) rs).
Proof.
  induction ps as [|[s st] ps IH]; intros pos rs pre post line C E El; inversion C; subst; [constructor|].
  cbn [kinds List.map fst snd classify_range flat_map]. rewrite <- app_assoc. rewrite get_span_eq with (a := pre) (c := flat_map fst ps ++ post) by reflexivity.
  apply Cut_cons. apply IH with (pre := pre ++ s) (post := post); [assumption|now rewrite blen_app|]. now rewrite <- app_assoc.
Qed.
Lemma kinds_text ps : chunks_text (kinds ps) = flat_map fst ps.
Proof. induction ps as [|[s st] ps IH]; [reflexivity|]. change (s ++ chunks_text (kinds ps) = s ++ flat_map fst ps). now rewrite IH. Qed.
Lemma kinds_proper ps : Forall ProperChunk (kinds ps).
Proof. unfold kinds. apply Forall_map, Forall_forall. intros [s st] _. cbn. eapply kind_proper, kind_ok. Qed.

Lemma highlighted_code parse src language answers : Parses parse -> language <> lit "none" -> language <> lit "papyri" ->
  parse language (lines src) = Some answers ->
  exists css out, Forall2 (fun la cs => LineParsed (fst la) (snd la) cs) (combine (lines src) answers) css /\
    syntax_highlight (syntect_of parse) src language = Ret (out, None) /\ Highlighted css out /\ List.map text_of out = lines src.
Proof.
  intros HP N1 N2 A. pose proof (HP _ _ _ A) as F.
  assert (G : exists css, Forall2 (fun la cs => LineParsed (fst la) (snd la) cs) (combine (lines src) answers) css /\
     List.map chunks_text css = lines src /\
     Forall2 LineGiven css (List.map (fun lp => classify_line (fst lp) (snd lp)) (combine (lines src) answers)) /\
     Forall (Forall ProperChunk) css).
  { clear A. induction F as [|line a ls answers L F IH]; [exists []; repeat constructor|]. destruct IH as (css & I1 & I2 & I3 & I4).
    destruct a as [rs|].
    - destruct L as (ps & C & T). exists (kinds ps :: css). cbn [combine List.map fst snd classify_line]. split; [|split; [|split]].
      + constructor; [|exact I1]. eapply parsed_ok; [exact C|exact T|]. now apply kinds_spec.
      + now rewrite I2, kinds_text, T.
      + constructor; [|exact I3]. unfold LineGiven. eapply cut_kinds with (pre := []) (post := []); [exact C|reflexivity|]. cbn. now rewrite app_nil_r.
      + constructor; [apply kinds_proper|exact I4].
    - exists ([(line, HPlain)] :: css). cbn [combine List.map fst snd classify_line]. split; [|split; [|split]].
      + constructor; [constructor|exact I1].
      + rewrite I2. unfold chunks_text. cbn. now rewrite app_nil_r.
      + constructor; [|exact I3]. unfold LineGiven. now exists line.
      + constructor; [|exact I4]. repeat constructor. }
  destruct G as (css & I1 & I2 & I3 & I4). exists css. unfold syntax_highlight.
  destruct (str_eqb language (lit "none")) eqn:E1; [apply str_eqb_eq in E1; congruence|].
  destruct (str_eqb language (lit "papyri")) eqn:E2; [apply str_eqb_eq in E2; congruence|].
  unfold syntect_of. rewrite A. destruct (highlight_lines_spec css _ src I3 I4) as (out & E & H). rewrite I2 in E. rewrite E. cbn [obind].
  exists out. split; [exact I1|]. split; [reflexivity|]. split; [exact H|]. rewrite <- I2. apply lines_text, H.
Qed.
