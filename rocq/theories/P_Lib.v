(** Proofs for C55. *)
From Verif Require Import Base BaseFacts M_Names M_Html M_Render M_Sequence M_Path M_Types M_Diag M_Ast M_Value M_State M_Native M_Eval M_Std M_Lib.
From Verif Require Import S_Diag P_Diag P_Built P_State P_Mono P_Std S_Scope S_Lib S_Example.
From Coq Require Import Lia.

Lemma std_compiles_plus X fuel level out : x_regex X std_regex <> None ->
  exists s, context_new X std_papyri (40 + fuel) level out = Ok tt s /\ Fresh level out s.
Proof.
  intro H. unfold context_new, compile_stdlib, compile_source, bind at 1. unfold bind at 1. unfold pure, parse_source. rewrite std_parses by (destruct (x_regex X std_regex); congruence).
  destruct level, out; vm_compute; (eexists; split; [reflexivity|auto 10]).
Qed.
Lemma std_compiles X fuel level out : x_regex X std_regex <> None -> 40 <= fuel ->
  exists s, context_new X std_papyri fuel level out = Ok tt s /\ Fresh level out s.
Proof. intros H L. replace fuel with (40 + (fuel - 40)) by lia. now apply std_compiles_plus. Qed.
Global Opaque std_papyri context_new compile render.

Lemma built_reports K w A (m : EM A) : Built K w A m -> forall s s', after (m s) = Some s' -> exists es, Reported s s' es.
Proof.
  apply built_rel; try (intros; exists []; reflexivity).
  - intros s1 s2 s3 [a Ha] [b Hb]. exists (a ++ b). unfold Reported in *. rewrite map_app, fold_left_app. now rewrite Hb, Ha.
  - intros s e. exists [e]. reflexivity.
  - intros s c bs s' _ [es H]. exists es. exact H.
  - intros s s' [es H]. exists es. exact H.
  - intros s k s' r _ _ _ [es H]. exists es. exact H.
Qed.

Lemma selected_none {A} (P : A -> Prop) l : Forall (fun x => ~ P x) l <-> Selected P l [].
Proof.
  split; intro H.
  - induction H; constructor; auto.
  - remember [] as l' eqn:E. induction H; constructor; auto; discriminate.
Qed.
Lemma reported_fresh s s' es l : st_sink s = sink_new l -> Reported s s' es ->
  SinkIs l es (st_sink s').
Proof. intros E H. unfold Reported in H. rewrite H, E. apply (sink_is_reports l es _ [] (sink_is_new l)). Qed.
Lemma sink_is_empty_spec l es d : SinkIs l es d -> (sink_is_empty d = true <-> Forall (fun e => ~ Diagnostic e) es).
Proof.
  intros (_ & _ & E & W). unfold sink_is_empty. rewrite andb_true_iff, !N.eqb_eq. rewrite (count_zero _ _ _ E), (count_zero _ _ _ W).
  unfold Diagnostic. rewrite !Forall_forall. firstorder.
Qed.

(** Compiling a sequence does not fail: it reports. *)
Definition NoErr {A} (m : EM A) : Prop := forall s e s', m s <> Err e s'.
Lemma noerr_bind A B (m : EM A) (f : A -> EM B) : NoErr m -> (forall a, NoErr (f a)) -> NoErr (bind m f).
Proof. intros H Hf s e s'. unfold bind. specialize (H s). destruct (m s); try discriminate; [apply Hf|]. intros [= -> ->]. now apply (H e s'). Qed.
Lemma noerr_ret A (a : A) : NoErr (ret a). Proof. discriminate. Qed.
Lemma noerr_catch A (m : EM A) : NoErr (catch m). Proof. intros s e s'. unfold catch. destruct (m s); discriminate. Qed.
Lemma noerr_pure A c (r : outcome A) : NoErr (pure c r). Proof. intros s e s'. unfold pure. destruct r; discriminate. Qed.
Lemma noerr_report e : NoErr (report e). Proof. intros s e' s'. discriminate. Qed.
Lemma noerr_compiler A (m : EM A) : NoErr m -> NoErr (with_compiler m).
Proof. intros H s e s'. unfold with_compiler. cbv zeta. specialize (H (set_stack [length (st_heap s)] (set_exports [] (set_heap (st_heap s ++ [Frame (Some (st_root s)) [] []]) s)))). destruct (m _); try discriminate. intros _. now apply (H e0 s0). Qed.
Lemma noerr_node R n b : NoErr (compile_node R n b).
Proof.
  destruct n; cbn [compile_node]; unfold push_result, no_piece, push_piece;
    repeat first [apply noerr_ret | apply noerr_catch | apply noerr_pure | (apply noerr_bind; [|intros [|]]) | (apply noerr_bind; [|intro])].
Qed.
Lemma noerr_nodes R ns : forall b, NoErr (compile_nodes R ns b).
Proof.
  induction ns as [|n ns IH]; intro b; cbn [compile_nodes]; [apply noerr_ret|]. apply noerr_bind; [apply noerr_node|]. intros [o b'].
  apply noerr_bind; [|intro; apply IH]. destruct (fst _); [apply noerr_report|apply noerr_ret].
Qed.
Lemma noerr_sequence R ns k p : NoErr (compile_sequence R ns k p).
Proof.
  unfold compile_sequence. apply noerr_bind; [apply noerr_nodes|]. intro b. destruct (b_into_html b); [apply noerr_ret|].
  apply noerr_bind; [apply noerr_report|intro; apply noerr_ret].
Qed.
Lemma noerr_report_all es : NoErr (report_all es).
Proof. induction es; cbn [report_all]; [apply noerr_ret|]. apply noerr_bind; [apply noerr_report|intro; auto]. Qed.
Lemma noerr_source X R p t k : NoErr (compile_source X R p t k).
Proof.
  unfold compile_source. apply noerr_bind; [apply noerr_pure|]. intros [root errs]. apply noerr_bind; [apply noerr_report_all|]. intro.
  apply noerr_compiler, noerr_sequence.
Qed.

Lemma compile_str_result X fuel text r : x_regex X std_regex <> None -> 40 <= fuel -> compile_str X fuel text = Ret r ->
  exists s0 h exports s es, Fresh LWarning None s0 /\ compile (no_network X) fuel (lit "<string>") text s0 = Ok (h, exports) s /\
    Reported s0 s es /\
    match r with
    | Document out => out = render true h /\ Forall (fun e => ~ Diagnostic e) es
    | Diagnostics ds => Selected Diagnostic es ds /\ ds <> []
    end.
Proof.
  intros HX L. unfold compile_str. cbv zeta. destruct (std_compiles (no_network X) fuel LWarning None HX L) as (s0 & E & F). rewrite E.
  destruct (compile (no_network X) fuel (lit "<string>") text s0) as [[h x] s|e s| |] eqn:C.
  2-4: intro Hx; discriminate Hx.
  intro Hr. assert (Er : (if sink_is_empty (st_sink s) then Document (render true h) else Diagnostics (sk_v (st_sink s))) = r)
    by (destruct (sink_is_empty (st_sink s)); now injection Hr). subst r. clear Hr.
  destruct (built_reports any_key true _ _ (built_compile (no_network X) fuel (lit "<string>") text true) s0 s) as [es He]; [now rewrite C|].
  exists s0, h, x, s, es. split; [exact F|]. split; [exact C|]. split; [exact He|].
  assert (HS : SinkIs LWarning es (st_sink s)) by (eapply reported_fresh; [apply F|exact He]).
  pose proof (sink_is_empty_spec _ _ _ HS) as HE. destruct (sink_is_empty (st_sink s)); [split; [reflexivity|now apply HE]|].
  destruct HS as (_ & V & _ & _). assert (V' : Selected Diagnostic es (sk_v (st_sink s))).
  { clear - V. induction V as [|x l l' Hx V IH|x l l' Hx V IH]; constructor; auto; cbn in Hx; unfold Diagnostic; tauto. }
  split; [exact V'|]. intro Z. rewrite Z in V'. apply selected_none in V'. apply HE in V'. discriminate.
Qed.
Lemma compile_str_fuel X fuel fuel' text : fuel <= fuel' -> compile_str X fuel text <> OutOfFuel -> compile_str X fuel' text = compile_str X fuel text.
Proof.
  intros L. unfold compile_str. cbv zeta. destruct (le_context (no_network X) std_papyri fuel fuel' LWarning None L) as [->|<-]; [congruence|].
  destruct (context_new _ _ _ _ _) as [[] s| | |]; try reflexivity.
  destruct (le_compile (no_network X) fuel fuel' (lit "<string>") text L s) as [->|<-]; [congruence|reflexivity].
Qed.
Lemma compile_no_output X fuel path text s s' : after (compile X fuel path text s) = Some s' -> st_out s = None -> st_out s' = None.
Proof.
  intros H E. pose proof (built_out any_key true _ _ (built_compile X fuel path text true) _ _ H) as C. unfold Collected in C. rewrite E in C.
  destruct (st_out s'); [contradiction|reflexivity].
Qed.
Transparent compile context_new std_papyri render.
Lemma compile_no_err X fuel path text s e s' : compile X fuel path text s <> Err e s'.
Proof. apply noerr_source. Qed.
Lemma compile_str_network X X' fuel text : SameButNetwork X X' -> compile_str X fuel text = compile_str X' fuel text.
Proof.
  intro H. assert (E : no_network X = no_network X'); [|unfold compile_str; now rewrite E].
  destruct X, X'. unfold SameButNetwork in H. cbn in H. unfold no_network. cbn. repeat match goal with H : _ /\ _ |- _ => destruct H end. subst. reflexivity.
Qed.
Lemma compile_str_reads_files : exists X X' fuel text, SameButFiles X X' /\ x_regex X std_regex <> None /\
  compile_str X fuel text = Ret (Document (lit "<p>alice</p>")) /\ compile_str X' fuel text = Ret (Document (lit "<p>bob</p>")).
Proof.
  exists (ex_files_X [(lit "/etc/secret", lit "alice")]), (ex_files_X [(lit "/etc/secret", lit "bob")]), 50, (lit "@file::read `/etc/secret`").
  split; [repeat split|]. split; [discriminate|]. split; vm_compute; reflexivity.
Qed.
