(** Proofs for C74: from a text to its document. *)
From Verif Require Import Base BaseFacts M_Names M_TagInfo M_Html M_Render M_Sequence M_Types M_Token M_Tokenizer M_Diag M_Queue M_Parser M_ParserPos M_Ast M_Value M_State M_Native M_Eval M_Std M_Lib.
From Verif Require Import S_Diag P_Diag P_Built P_State P_Mono P_Std S_Scope S_Lib P_Lib.
From Verif Require Import S_Front S_Lex P_Lex P_Cut P_LexStrip S_Parser S_Grammar S_Redundant P_Redundant P_Parser S_Pos P_ParserPos P_ParserWhere S_Expr P_Expr P_Expr2 P_Sequence.

Lemma parse_reports decode regex_ok src text ns ds : parse decode regex_ok src text = Ret (ns, ds) -> Forall Diagnostic ds.
Proof.
  intros H. rewrite parse_erase in H. destruct (parse_pos decode regex_ok src text) as [[ns' dps]| |] eqn:P; cbn [obind fst snd] in H; try discriminate.
  injection H as <- <-. destruct (parse_where _ _ _ _ _ _ P) as (all & errs & T & W).
  apply Forall_forall. intros e I. apply in_map_iff in I as ([e' p] & <- & I). cbn [fst]. destruct (W _ _ I) as [[A _]|(tok & _ & _ & A)].
  - destruct e'; cbn in A; try contradiction. left. exact Logic.I.
  - destruct e'; cbn in A; try contradiction; [left; exact Logic.I|right; exact Logic.I].
Qed.
Lemma sink_reported errs : forall s, st_sink (fold_left (fun s e => reported e s) errs s) = fold_left sink_do (map Report errs) (st_sink s).
Proof. induction errs as [|e errs IH]; intro s; cbn [fold_left map]; [reflexivity|]. now rewrite IH. Qed.
Lemma makes_reports X k ns s h s1 : good_kind k -> Makes X k None ns s h s1 -> exists es, Reported s s1 es.
Proof.
  intros G M. apply sequence_spec in M as [f M]; [|exact G].
  apply (built_reports any_key true _ (compile_sequence (evals_n X f) ns k None)); [|now rewrite M].
  apply built_compile_sequence; intros; apply built_evals; intros; exact I.
Qed.
Lemma good_p : good_kind (RequireBlock n_p). Proof. unfold good_kind; cbn; auto. Qed.
Lemma sink_new_empty l es d : SinkIs l es d -> l = LWarning -> sink_is_empty d = true -> Forall (fun e => ~ Diagnostic e) es /\ d = sink_new LWarning.
Proof.
  intros S -> E. assert (F : Forall (fun e => ~ Diagnostic e) es) by now apply (sink_is_empty_spec _ _ _ S). split; [exact F|].
  unfold sink_is_empty in E. apply andb_true_iff in E as [E1 E2]. apply N.eqb_eq in E1, E2. destruct S as (L & V & _ & _).
  assert (sk_v d = []) as Z.
  { assert (V' : Selected Diagnostic es (sk_v d)).
    { clear - V. induction V as [|x l l' Hx V IH|x l l' Hx V IH]; constructor; auto; cbn in Hx; unfold Diagnostic; tauto. }
    apply selected_none in F. clear - V' F. revert F. generalize (sk_v d) V'. clear. intros l V. induction V as [|x l l' Hx V IH|x l l' Hx V IH]; intro F; auto; inversion F; subst; auto; contradiction. }
  destruct d. unfold sink_new. cbn in *. congruence.
Qed.

Section Whole.
  Variable Y : externals.
  Variables (path text : str) (s0 : st).
  Hypothesis HR : forall ps, x_regex Y (regex_text regex_escape ps) <> None.
  Hypothesis HS : st_sink s0 = sink_new LWarning.

  Lemma regex_accepted : forall ps, (fun s => match x_regex Y s with Some _ => true | None => false end) (regex_text regex_escape ps) = true.
  Proof. intro ps. cbv beta. destruct (x_regex Y (regex_text regex_escape ps)) eqn:E; [reflexivity|]. exfalso. exact (HR ps E). Qed.
  Lemma whole_sound fuel h ex s : compile Y fuel path text s0 = Ok (h, ex) s -> sink_is_empty (st_sink s) = true ->
    exists all toks ns s1, Lexes 0 QLeft text all [] /\ Stripped all toks /\
      S_Grammar.Document path (x_decode Y) regex_escape toks ns /\
      Makes Y (RequireBlock n_p) None ns (begun s0) h s1 /\ st_sink s1 = st_sink s0.
  Proof.
    intros C E.
    assert (D : DocumentOf Y path text s0 h ex s) by (apply document_spec; now exists fuel).
    destruct D as [root errs h s1 P M]. cbn [st_sink set_stack set_exports] in E.
    destruct (makes_reports _ _ _ _ _ _ good_p M) as [es R]. unfold Reported in R. unfold begun in R. cbn [st_sink set_stack set_exports set_heap] in R.
    rewrite sink_reported, HS, <- fold_left_app, <- map_app in R.
    assert (S : SinkIs LWarning (errs ++ es) (st_sink s1)) by (rewrite R; apply (sink_is_reports LWarning (errs ++ es) _ [] (sink_is_new _))).
    destruct (sink_new_empty _ _ _ S eq_refl E) as [F N]. apply Forall_app in F as [F _].
    assert (errs = []) as ->.
    { pose proof (parse_reports _ _ _ _ _ _ P) as A. destruct errs as [|e errs]; [reflexivity|]. inversion A; inversion F; subst. contradiction. }
    cbn [fold_left] in M. destruct (proj1 (parse_accepts path (x_decode Y) _ regex_accepted text root)) as (toks & T & D).
    { exists []. split; [exact P|constructor]. }
    destruct (tokenize_stripped_sound _ _ _ T) as (all & L & St). exists all, toks, root, s1. rewrite N, HS. auto 8.
  Qed.
  Lemma whole_complete all toks ns h s1 : Lexes 0 QLeft text all [] -> Stripped all toks -> ~ Redundant toks ->
    S_Grammar.Document path (x_decode Y) regex_escape toks ns ->
    Makes Y (RequireBlock n_p) None ns (begun s0) h s1 -> st_sink s1 = st_sink s0 ->
    exists fuel ex s, compile Y fuel path text s0 = Ok (h, ex) s /\ sink_is_empty (st_sink s) = true.
  Proof.
    intros L St Q D M N.
    assert (T : tokenize text true = Ret (toks, [])) by (apply tokenize_stripped_iff; split; [eapply clean_uncut; eassumption|eauto]).
    destruct (proj2 (parse_accepts path (x_decode Y) _ regex_accepted text ns)) as (ds & P & E); [eauto|].
    assert (ds = []) as ->.
    { destruct ds as [|d ds]; [reflexivity|]. destruct Q. exact (parse_warns _ _ _ _ _ _ _ T P E ltac:(discriminate)). }
    assert (D' : DocumentOf Y path text s0 h (st_exports s1) (set_stack (st_stack s0) (set_exports (st_exports s0) s1))) by (econstructor; [exact P|exact M]).
    apply document_spec in D' as [f C]. exists f. do 2 eexists. split; [exact C|].
    cbn [st_sink set_stack set_exports]. rewrite N, HS. reflexivity.
  Qed.
End Whole.

(** [compile_str], for any text of the standard library *)
Section Library.
  Variable std : str.
  Definition compile_with (X : externals) (fuel : nat) (src : str) : outcome compiled :=
    let X := no_network X in
    match context_new X std fuel LWarning None with
    | Ok _ s =>
      match compile X fuel (lit "<string>") src s with
      | Ok (out, _) s =>
        if sink_is_empty (st_sink s) then Ret (M_Lib.Document (render true out)) else Ret (Diagnostics (sk_v (st_sink s)))
      | Err _ _ => Panic
      | Crash _ => Panic
      | NoFuel => OutOfFuel
      end
    | Err _ _ => Panic
    | Crash _ => Panic
    | NoFuel => OutOfFuel
    end.
  Lemma context_up X fuel fuel' s0 : fuel <= fuel' -> context_new X std fuel LWarning None = Ok tt s0 -> context_new X std fuel' LWarning None = Ok tt s0.
  Proof. intros L E. destruct (le_context X std fuel fuel' LWarning None L) as [Z|Z]; rewrite E in Z; [discriminate Z|exact (eq_sym Z)]. Qed.
  Lemma compile_up X fuel fuel' path text s r : fuel <= fuel' -> compile X fuel path text s = r -> r <> NoFuel -> compile X fuel' path text s = r.
  Proof. intros L E N. destruct (le_compile X fuel fuel' path text L s) as [Z|Z]; rewrite E in Z; [contradiction|exact (eq_sym Z)]. Qed.
  Lemma compile_with_iff X text out s0 n : context_new (no_network X) std n LWarning None = Ok tt s0 ->
    (exists fuel, compile_with X fuel text = Ret (M_Lib.Document out)) <->
    (exists fuel h ex s, compile (no_network X) fuel (lit "<string>") text s0 = Ok (h, ex) s /\ sink_is_empty (st_sink s) = true /\ out = render true h).
  Proof.
    intros E. unfold compile_with. cbv zeta. split.
    - intros [f H]. destruct (context_new (no_network X) std f LWarning None) as [[] s'| | |] eqn:E'; try discriminate.
      assert (s' = s0) as ->.
      { pose proof (context_up _ _ (Nat.max n f) _ (Nat.le_max_l _ _) E) as A. pose proof (context_up _ _ (Nat.max n f) _ (Nat.le_max_r _ _) E') as B. congruence. }
      destruct (compile _ f _ text s0) as [[h ex] s| | |] eqn:C; try discriminate. destruct (sink_is_empty (st_sink s)) eqn:Z; [|discriminate].
      injection H as <-. exists f, h, ex, s. auto.
    - intros (f & h & ex & s & C & Z & ->). exists (Nat.max n f). rewrite (context_up _ n _ s0) by (auto; lia).
      rewrite (compile_up _ f _ _ _ _ _ (Nat.le_max_r _ _) C) by discriminate. now rewrite Z.
  Qed.
End Library.
Lemma compile_str_iff X text out s0 n : context_new (no_network X) std_papyri n LWarning None = Ok tt s0 ->
    (exists fuel, compile_str X fuel text = Ret (M_Lib.Document out)) <->
    (exists fuel h ex s, compile (no_network X) fuel (lit "<string>") text s0 = Ok (h, ex) s /\ sink_is_empty (st_sink s) = true /\ out = render true h).
Proof. exact (compile_with_iff std_papyri X text out s0 n). Qed.
Lemma regex_no_network X : (forall ps, x_regex X (regex_text regex_escape ps) <> None) -> forall ps, x_regex (no_network X) (regex_text regex_escape ps) <> None.
Proof. exact (fun H => H). Qed.
Lemma start_exists X : x_regex X std_regex <> None -> exists s0, context_new (no_network X) std_papyri 40 LWarning None = Ok tt s0 /\ st_sink s0 = sink_new LWarning.
Proof. intro H. destruct (std_compiles (no_network X) 40 LWarning None H (le_n _)) as (s & E & F). exists s. split; [exact E|apply F]. Qed.
Lemma text_sound X text fuel out s0 : x_regex X std_regex <> None ->
  (forall ps, x_regex X (regex_text regex_escape ps) <> None) ->
  context_new (no_network X) std_papyri 40 LWarning None = Ok tt s0 ->
  compile_str X fuel text = Ret (M_Lib.Document out) ->
  exists all toks ns h s1, Lexes 0 QLeft text all [] /\ Stripped all toks /\
    S_Grammar.Document (lit "<string>") (x_decode X) regex_escape toks ns /\
    Makes (no_network X) (RequireBlock n_p) None ns (begun s0) h s1 /\ st_sink s1 = st_sink s0 /\ out = render true h.
Proof.
  intros HX HR E H. destruct (start_exists X HX) as (s & E' & F). assert (Q := eq_trans (eq_sym E) E'). injection Q as <-.
  destruct (proj1 (compile_str_iff X text out s0 40 E) (ex_intro _ fuel H)) as (f & h & ex & s & C & Z & O).
  destruct (whole_sound (no_network X) (lit "<string>") text s0 (regex_no_network X HR) F f h ex s C Z) as (all & toks & ns & s1 & A & B & D & M & N).
  exists all, toks, ns, h, s1. exact (conj A (conj B (conj D (conj M (conj N O))))).
Qed.
Lemma text_complete X text s0 all toks ns h s1 : x_regex X std_regex <> None ->
  (forall ps, x_regex X (regex_text regex_escape ps) <> None) ->
  context_new (no_network X) std_papyri 40 LWarning None = Ok tt s0 ->
  Lexes 0 QLeft text all [] -> Stripped all toks -> ~ Redundant toks ->
  S_Grammar.Document (lit "<string>") (x_decode X) regex_escape toks ns ->
  Makes (no_network X) (RequireBlock n_p) None ns (begun s0) h s1 -> st_sink s1 = st_sink s0 ->
  exists fuel, compile_str X fuel text = Ret (M_Lib.Document (render true h)).
Proof.
  intros HX HR E A B Q D M N. destruct (start_exists X HX) as (s & E' & F). assert (Q' := eq_trans (eq_sym E) E'). injection Q' as <-.
  destruct (whole_complete (no_network X) (lit "<string>") text s0 (regex_no_network X HR) F all toks ns h s1 A B Q D M N) as (f & ex & s & C & Z).
  apply (compile_str_iff X text (render true h) s0 40 E). exists f, h, ex, s. exact (conj C (conj Z eq_refl)).
Qed.
