(** Proofs about what expressions evaluate to (C62). *)
From Verif Require Import Base BaseFacts M_Text M_Names M_TagInfo M_SliceRef M_Html M_Sequence M_Types M_Token M_Diag M_Ast M_Value M_State M_Matcher M_Binder M_Native M_Eval
  S_Front P_Front S_Scope S_Match S_Expr P_Pattern P_State P_Scope P_Mono P_Coerce P_Native P_Text S_Util P_Util S_Call P_Call P_StdLib2.

Section Lim.
  Variable X : externals.
  Definition Mono {A} (m : evals -> EM A) : Prop := forall f f', f <= f' -> Le (m (evals_n X f)) (m (evals_n X f')).
  Definition At {A} (m : evals -> EM A) (s : st) (r : res A) : Prop := exists fuel, m (evals_n X fuel) s = r.
  Lemma mono_up A (m : evals -> EM A) s r f f' : Mono m -> m (evals_n X f) s = r -> r <> NoFuel -> f <= f' -> m (evals_n X f') s = r.
  Proof. intros M E N L. destruct (M f f' L s) as [H|H]; congruence. Qed.
  Lemma at_const A (m : EM A) s r : At (fun _ => m) s r <-> m s = r.
  Proof. split; [intros [f H]; exact H|intro H; now exists 0]. Qed.
  Lemma mono_const A (m : EM A) : Mono (fun _ => m).
  Proof. intros f f' _. apply le_refl. Qed.
  Lemma mono_bind A B (m : evals -> EM A) (k : A -> evals -> EM B) : Mono m -> (forall a, Mono (k a)) -> Mono (fun R => bind (m R) (fun a => k a R)).
  Proof. intros M K f f' L. apply le_bind; [now apply M|]. intro a. now apply K. Qed.
  Lemma at_bind A B (m : evals -> EM A) (k : A -> evals -> EM B) s b s2 : Mono m -> (forall a, Mono (k a)) ->
    At (fun R => bind (m R) (fun a => k a R)) s (Ok b s2) <-> exists a s1, At m s (Ok a s1) /\ At (k a) s1 (Ok b s2).
  Proof.
    intros M K. split.
    - intros [f H]. unfold bind in H. destruct (m (evals_n X f) s) as [a s1| | |] eqn:E; try discriminate. exists a, s1. split; [now exists f|now exists f].
    - intros (a & s1 & [f H] & [f' H']). exists (Nat.max f f'). unfold bind.
      rewrite (mono_up _ m s _ f (Nat.max f f') M H); [|discriminate|lia].
      apply (mono_up _ (k a) s1 _ f' (Nat.max f f') (K a) H'); [discriminate|lia].
  Qed.
  Lemma at_fun A (m : evals -> EM A) s r r' : Mono m -> At m s r -> At m s r' -> r <> NoFuel -> r' <> NoFuel -> r = r'.
  Proof.
    intros M [f H] [f' H'] N N'. rewrite <- (mono_up _ m s r f (Nat.max f f') M H); [|assumption|lia].
    apply (mono_up _ m s r' f' (Nat.max f f') M H'); [assumption|lia].
  Qed.
  Lemma mono_node e t : Mono (fun R => e_node R e t).
  Proof. intros f f' L. now apply le_evals. Qed.
  Lemma mono_call f bs t src : Mono (fun R => e_call R f bs t src).
  Proof. intros k k' L. now apply le_evals. Qed.
  Lemma at_node e t s r : r <> NoFuel -> At (fun R => e_node R e t) s r <-> At (fun R => evaluate_node X R e t) s r.
  Proof.
    intro N. split; intros [f H].
    - destruct f; [cbn in H; congruence|]. now exists f.
    - now exists (S f).
  Qed.
  Lemma at_call f bs t src s r : r <> NoFuel -> At (fun R => e_call R f bs t src) s r <-> At (fun R => evaluate_call X R f bs t src) s r.
  Proof.
    intro N. split; intros [k H].
    - destruct k; [cbn in H; congruence|]. now exists k.
    - now exists (S k).
  Qed.
End Lim.

(** ** Names *)
Lemma coerce_any v : coerce TAny v = inl v.
Proof. reflexivity. Qed.
Lemma coerce_list_any vs : coerce (TList TAny) (VList vs) = inl (VList vs).
Proof. change (coerce_base (TList TAny) (VList vs) = inl (VList vs)). cbn [coerce_base]. rewrite coerce_all_id; [reflexivity|reflexivity]. Qed.
Lemma coerce_list_inv v w c : coerce (t_option_if (TList TAny) c) v = inl w ->
  w = v /\ ((exists vs, v = VList vs) \/ v = UNIT /\ c = true).
Proof.
  destruct c; cbn [t_option_if t_option].
  - change (coerce (t_option (TList TAny)) v) with (if is_unit v then inl UNIT else coerce (TList TAny) v : value + papyri_error).
    destruct (is_unit v) eqn:U.
    + intro H. inversion H; subst w. destruct v as [| | | | |[]| |]; try discriminate. auto.
    + intro H. destruct v; try discriminate. rewrite coerce_list_any in H. inversion H; subst. eauto.
  - intro H. destruct v; try discriminate. rewrite coerce_list_any in H. inversion H; subst. eauto.
Qed.
Lemma native_attr_state v a s f s' : evaluate_native_attr v a s = Ok f s' -> s' = s.
Proof.
  unfold evaluate_native_attr. destruct (ngetm (native_attr v) a) as [[n c]|]; [|discriminate]. destruct (native_wf n) as [W _].
  assert (H : HasBeenGiven (FNative n a (native_sig n)) []) by (intro; reflexivity). intro E. destruct c.
  - rewrite bind_content_eq in E. pose proof (bind_spec (FNative n a (native_sig n)) [] [GContent v] s W H) as P. rewrite E in P. tauto.
  - rewrite bind_positional_eq in E. pose proof (bind_spec (FNative n a (native_sig n)) [] [GPos v] s W H) as P. rewrite E in P. tauto.
Qed.
Lemma unit_dec v : is_unit v = true <-> v = UNIT.
Proof. split; [|intros ->; reflexivity]. destruct v as [| | | | |[]| |]; try discriminate. reflexivity. Qed.
(** a computation that reports its failure *)
Lemma or_report_ok {A} (m : EM A) s a s' : or_report m s = Ok a s' <-> m s = Ok a s'.
Proof. unfold or_report. destruct (m s); split; intro H; try discriminate; exact H. Qed.
Lemma bind_ok {A B} (m : EM A) (k : A -> EM B) s b s' : bind m k s = Ok b s' <-> exists a s1, m s = Ok a s1 /\ k a s1 = Ok b s'.
Proof.
  unfold bind. split.
  - destruct (m s) as [a s1| | |]; try discriminate. eauto.
  - intros (a & s1 & -> & H). exact H.
Qed.
Lemma coerceM_ok v t s w s' : coerceM v t s = Ok w s' <-> coerce t v = inl w /\ s' = s.
Proof. unfold coerceM, lift. destruct (coerce t v); cbv [ret fail]; split; [intros [= <- <-]|intros [[= ->] ->]|discriminate|intros [H _]]; auto; discriminate. Qed.
Lemma ret_ok {A} (a : A) s b s' : ret a s = Ok b s' <-> b = a /\ s' = s.
Proof. unfold ret. split; [intros [= <- <-]; auto|intros [-> ->]; reflexivity]. Qed.
Lemma to_opt_list v s o s' : to_opt to_list v s = Ok o s' <-> s' = s /\ (v = UNIT /\ o = None \/ exists vs, v = VList vs /\ o = Some vs).
Proof.
  unfold to_opt. destruct (is_unit v) eqn:U.
  - apply unit_dec in U as ->. rewrite ret_ok. split; [intros [-> ->]; auto|]. intros [-> [[_ ->]|(vs & H & _)]]; [auto|discriminate].
  - rewrite bind_ok. split.
    + intros (a & s1 & H & H'). apply ret_ok in H' as [-> ->]. destruct v; try discriminate. inversion H; subst. eauto.
    + intros [-> [[-> _]|(vs & -> & ->)]]; [discriminate|]. exists vs, s. split; reflexivity.
Qed.
Lemma to_opt_str v s o s' : to_opt to_str v s = Ok o s' <-> s' = s /\ v = group_value o.
Proof.
  unfold to_opt. destruct (is_unit v) eqn:U.
  - apply unit_dec in U as ->. rewrite ret_ok. split; [intros [-> ->]; auto|]. intros [-> H]. destruct o; [discriminate|auto].
  - rewrite bind_ok. split.
    + intros (a & s1 & H & H'). apply ret_ok in H' as [-> ->]. destruct v; try discriminate. inversion H; subst. auto.
    + intros [-> ->]. destruct o as [x|]; [|discriminate]. exists x, s. split; reflexivity.
Qed.
Lemma pure_ok {A} f (o : outcome A) s a s' : pure f o s = Ok a s' <-> o = Ret a /\ s' = s.
Proof. unfold pure. destruct o; split; try discriminate; try (intros [H _]; discriminate); [intros [= <- <-]|intros [[= ->] ->]]; auto. Qed.

Lemma names_spec n : forall t s w s', evaluate_name n t s = Ok w s' <-> s' = s /\ exists v, Names s n v /\ coerce t v = inl w.
Proof.
  induction n as [n|x IH c a|x IH c i]; intros t s w s'; cbn [evaluate_name]; rewrite or_report_ok, bind_ok.
  - split.
    + intros (v & s1 & G & C). apply coerceM_ok in C as [C ->].
      assert (s1 = s) as -> by (unfold get_var, frame_lookup, frame_id, gets, bind in G; destruct (st_stack s); [discriminate|]; destruct (frame_get _ _ _ _); inversion G; reflexivity).
      split; [reflexivity|]. exists v. split; [now constructor|exact C].
    + intros [-> (v & N & C)]. inversion N; subst. exists v, s. split; [assumption|]. now apply coerceM_ok.
  - split.
    + intros (v & s1 & G & C). apply coerceM_ok in C as [C ->]. apply bind_ok in G as (u & s2 & G1 & G2).
      apply IH in G1 as [-> (u' & N & E)]. rewrite coerce_any in E. injection E as ->.
      assert (Hm : forall f, (let* f := evaluate_native_attr u a in ret (VFunc f)) s = Ok f s1 -> exists g, f = VFunc g /\ evaluate_native_attr u a s = Ok g s /\ s1 = s).
      { intros f H. apply bind_ok in H as (g & s3 & H1 & H2). apply ret_ok in H2 as [-> ->]. pose proof (native_attr_state _ _ _ _ _ H1). subst. eauto. }
      destruct (is_unit u && c) eqn:Eu.
      { apply andb_true_iff in Eu as [Eu ->]. apply unit_dec in Eu as ->. apply ret_ok in G2 as [-> ->]. split; [reflexivity|].
        exists UNIT. split; [now apply nm_no_attr|exact C]. }
      assert (Hc : u = UNIT -> c = false) by (intros ->; now destruct c).
      destruct u as [b|k|y|vs|l|h|f|r]; try (apply Hm in G2 as (g & -> & G2 & ->); split; [reflexivity|]; exists (VFunc g); split; [|exact C]; eapply nm_method; eauto; discriminate).
      * destruct (ngetm vs a) as [z|] eqn:Ez.
        { apply ret_ok in G2 as [-> ->]. split; [reflexivity|]. exists z. split; [eapply nm_entry; eauto|exact C]. }
        apply Hm in G2 as (g & -> & G2 & ->); split; [reflexivity|]; exists (VFunc g); split; [|exact C]; eapply nm_method; eauto; [|discriminate].
        intros ? ? [= ->]. congruence.
      * destruct h as [|n0 a0 h0| | | |]; try (apply Hm in G2 as (g & -> & G2 & ->); split; [reflexivity|]; exists (VFunc g); split; [|exact C]; eapply nm_method; eauto; discriminate).
        destruct (str_eqb a n_tag_name) eqn:Ea.
        { apply str_eqb_eq in Ea as ->. apply ret_ok in G2 as [-> ->]. split; [reflexivity|]. eexists. split; [eapply nm_tag_name; eauto|exact C]. }
        apply Hm in G2 as (g & -> & G2 & ->); split; [reflexivity|]; exists (VFunc g); split; [|exact C]; eapply nm_method; eauto; [discriminate|].
        intros ? ? ? _ ->. rewrite str_eqb_refl in Ea. discriminate.
    + intros [-> (v & N & C)]. exists v, s. split; [|now apply coerceM_ok]. apply bind_ok.
      inversion N; subst.
      * exists UNIT, s. split; [apply IH; eauto|reflexivity].
      * exists (VDict vs), s. split; [apply IH; eauto|]. cbn [is_unit andb]. now rewrite H4.
      * exists (VHtml (HTag n a0 h)), s. split; [apply IH; eauto|]. cbn [is_unit andb]. reflexivity.
      * exists v0, s. split; [apply IH; eauto|]. replace (is_unit v0 && c) with false.
        2: { destruct (is_unit v0) eqn:U; [|reflexivity]. apply unit_dec in U. now rewrite (H3 U). }
        assert (Hn : (let* f0 := evaluate_native_attr v0 a in ret (VFunc f0)) s = Ok (VFunc f) s) by (apply bind_ok; eexists; eexists; split; [eassumption|reflexivity]).
        destruct v0 as [| | |vs| |h| |]; try exact Hn.
        { destruct (ngetm vs a) eqn:E; [|exact Hn]. now elim (H4 vs v eq_refl). }
        { destruct h; try exact Hn. destruct (str_eqb a n_tag_name) eqn:E; [|exact Hn]. apply str_eqb_eq in E. match goal with H : forall n l h, _ = _ -> a <> _ |- _ => now elim (H _ _ _ eq_refl) end. }
  - split.
    + intros (v & s1 & G & C). apply coerceM_ok in C as [C ->]. apply bind_ok in G as (u & s2 & G1 & G2).
      apply IH in G1 as [-> (u' & N & E)]. apply coerce_list_inv in E as [-> E]. apply bind_ok in G2 as (o & s3 & G2 & G3).
      apply to_opt_list in G2 as [-> [[-> ->]|(vs & -> & ->)]].
      * apply ret_ok in G3 as [-> ->]. split; [reflexivity|]. destruct E as [[vs E]|[_ ->]]; [discriminate|].
        exists UNIT. split; [now apply nm_no_element|exact C].
      * apply bind_ok in G3 as (r & s4 & G3 & G4). apply pure_ok in G3 as [G3 ->]. destruct r as [z|]; [|discriminate].
        apply ret_ok in G4 as [-> ->]. split; [reflexivity|]. exists z. split; [|exact C]. eapply nm_element; [exact N|].
        now apply (proj1 (list_get_spec (sr_from vs) vs i (sr_from_view vs))).
    + intros [-> (v & N & C)]. exists v, s. split; [|now apply coerceM_ok]. apply bind_ok. inversion N; subst.
      * exists UNIT, s. split; [apply IH; eauto|]. reflexivity.
      * exists (VList vs), s. split.
        { apply IH. split; [reflexivity|]. exists (VList vs). split; [assumption|].
          destruct c; [change (coerce (t_option_if (TList TAny) true) (VList vs)) with (coerce (TList TAny) (VList vs))|]; apply coerce_list_any. }
        apply bind_ok. exists (Some vs), s. split; [reflexivity|]. apply bind_ok. exists (Some v), s. split; [|reflexivity].
        apply pure_ok. split; [|reflexivity]. now apply (list_get_spec (sr_from vs) vs i (sr_from_view vs)).
Qed.

(** ** Templates *)
Lemma template_spec ps : forall s x s', template_text ps s = Ok x s' <-> s' = s /\ TextOf s ps x.
Proof.
  induction ps as [|p ps IH]; intros s x s'; cbn [template_text].
  - rewrite ret_ok. split; [intros [-> ->]; split; [reflexivity|constructor]|]. intros [-> H]. inversion H; subst. auto.
  - rewrite bind_ok. split.
    + intros (y & s1 & H1 & H2). apply bind_ok in H2 as (z & s2 & H2 & H3). apply ret_ok in H3 as [-> ->].
      assert (G : s1 = s /\ forall z, TextOf s ps z -> TextOf s (p :: ps) (y ++ z)).
      { destruct p as [l|c|n|]; try (apply ret_ok in H1 as [-> ->]; split; [reflexivity|intros; now constructor]).
        apply bind_ok in H1 as (v & s3 & H1 & H3). apply names_spec in H1 as [-> (u & N & C)].
        apply bind_ok in H3 as (o & s4 & H3 & H4). apply to_opt_str in H3 as [-> ->]. apply ret_ok in H4 as [-> ->].
        split; [reflexivity|]. intros w Hw. destruct o as [o|]; cbn [group_value] in C.
        - eapply tx_name; eauto.
        - apply tx_nothing; [|exact Hw]. change (coerce (t_option TStr) u) with (if is_unit u then inl UNIT else coerce_base TStr u : value + papyri_error) in C.
          destruct (is_unit u) eqn:U; [apply unit_dec in U as ->; exact N|]. destruct u; cbn in C; discriminate. }
      destruct G as [-> G]. apply IH in H2 as [-> H2]. split; [reflexivity|now apply G].
    + intros [-> H]. assert (G : forall y z, match p with TPLit s => ret s | TPChar c => ret [c]
          | TPName n => let* v := evaluate_name n (t_option TStr) in let* s := to_opt to_str v in ret match s with Some s => s | None => [] end
          | TPWhitespace => ret (lit " ") end s = Ok y s -> TextOf s ps z -> x = y ++ z ->
        exists a s1, match p with TPLit s => ret s | TPChar c => ret [c]
          | TPName n => let* v := evaluate_name n (t_option TStr) in let* s := to_opt to_str v in ret match s with Some s => s | None => [] end
          | TPWhitespace => ret (lit " ") end s = Ok a s1 /\ (let* rest := template_text ps in ret (a ++ rest)) s1 = Ok x s).
      { intros y z Hp Hz ->. exists y, s. split; [exact Hp|]. apply bind_ok. exists z, s. split; [now apply IH|reflexivity]. }
      inversion H; subst; (eapply G; [|eassumption|]); try reflexivity.
      * apply bind_ok. exists (VStr x0), s. split; [apply names_spec; split; [reflexivity|eauto]|]. reflexivity.
      * apply bind_ok. exists UNIT, s. split; [apply names_spec; split; [reflexivity|exists UNIT; split; [assumption|reflexivity]]|]. reflexivity.
      * reflexivity.
Qed.

Lemma verbatim_trim k x : (forall y, x <> lit "`" ++ y) -> (forall y, x <> y ++ lit "`") ->
  get_verbatim_text (repeat 96%N k ++ x ++ repeat 96%N k) = x.
Proof.
  intros A B. unfold get_verbatim_text, trim_by. fold (ticks k). rewrite drop_while_app_all by apply ticks_all.
  destruct x as [|c x].
  - cbn [app]. rewrite <- (app_nil_r (ticks k)) at 1. rewrite drop_while_app_all by apply ticks_all. reflexivity.
  - rewrite drop_while_id.
    + rewrite trim_end_by_app by apply ticks_all. apply trim_end_by_id. intros a d E. apply N.eqb_neq. intros <-. now apply (B a).
    + cbn [app]. intros d t [= <- <-]. apply N.eqb_neq. intros <-. now apply (A x).
Qed.

Lemma to_opt_func v s o s' : to_opt to_func v s = Ok o s' <-> s' = s /\ v = match o with Some f => VFunc f | None => UNIT end.
Proof.
  unfold to_opt. destruct (is_unit v) eqn:U.
  - apply unit_dec in U as ->. rewrite ret_ok. split; [intros [-> ->]; auto|]. intros [-> H]. destruct o; [discriminate|auto].
  - rewrite bind_ok. split.
    + intros (a & s1 & H1 & H2). apply ret_ok in H2 as [-> ->]. destruct v; try discriminate. cbn in H1. inversion H1; subst. auto.
    + intros [-> H]. destruct o as [f|]; subst v; [|discriminate]. exists f, s. split; reflexivity.
Qed.
Lemma coerce_func c v g : coerce (t_option_if TFunction c) v = inl (VFunc g) -> v = VFunc g.
Proof.
  destruct c; cbn [t_option_if t_option].
  - change (coerce (t_option TFunction) v) with (if is_unit v then inl UNIT else coerce_base TFunction v : value + papyri_error).
    destruct (is_unit v); [discriminate|]. destruct v; cbn; congruence.
  - change (coerce TFunction v) with (coerce_base TFunction v). destruct v; cbn; congruence.
Qed.
Lemma coerce_func_unit c v : coerce (t_option_if TFunction c) v = inl UNIT -> v = UNIT /\ c = true.
Proof.
  destruct c; cbn [t_option_if t_option].
  - change (coerce (t_option TFunction) v) with (if is_unit v then inl UNIT else coerce_base TFunction v : value + papyri_error).
    destruct (is_unit v) eqn:U; [apply unit_dec in U; auto|]. destruct v; cbn; discriminate.
  - change (coerce TFunction v) with (coerce_base TFunction v). destruct v; cbn; discriminate.
Qed.

Section Run.
  Variable X : externals.
  Notation At := (At X). Notation Mono := (Mono X).
  Notation Yields := (Yields X). Notation Items := (Items X). Notation Attributes := (Attributes X).
  Lemma yields_at e t s v s' : Yields e t s v s' <-> At (fun R => evaluate_node X R e t) s (Ok v s').
  Proof. apply (at_node X e t s (Ok v s')). discriminate. Qed.
  Lemma calls_at f bs t src s v s' : Calls X f bs t src s v s' <-> At (fun R => evaluate_call X R f bs t src) s (Ok v s').
  Proof. apply (at_call X f bs t src s (Ok v s')). discriminate. Qed.
  Hint Resolve mono_const mono_bind mono_node mono_call : mn.
  Ltac ev := intros ? ? ?L; pose proof (proj1 (le_evals X _ _ L)); pose proof (proj2 (le_evals X _ _ L)).
  Lemma mono_items l u : Mono (fun R => list_items R l u). Proof. ev. now apply le_list_items. Qed.
  Lemma mono_attrs l a : Mono (fun R => compile_attrs R l a). Proof. ev. now apply le_compile_attrs. Qed.
  Lemma mono_let l t d : Mono (fun R => evaluate_let_in R l t d). Proof. ev. now apply le_evaluate_let_in. Qed.
  Lemma mono_vars l i d : Mono (fun R => let_vars R l i d). Proof. ev. now apply le_let_vars. Qed.
  Lemma mono_def d : Mono (fun R => compile_func_def (e_node R) d). Proof. ev. now apply le_compile_func_def. Qed.
  Lemma mono_sig d : Mono (fun R => compile_func_signature (e_node R) d). Proof. ev. now apply le_compile_func_signature. Qed.
  Lemma mono_binding f l c : Mono (fun R => bind_call (e_node R) f l c). Proof. ev. now apply le_bind_call. Qed.
  Lemma mono_names l : Mono (fun R => export_names R l). Proof. ev. now apply le_export_names. Qed.
  Lemma mono_export e : Mono (fun R => compile_export R e). Proof. ev. now apply le_compile_export. Qed.
  Lemma mono_fence a b c : Mono (fun R => compile_code_fence R a b c). Proof. ev. now apply le_compile_code_fence. Qed.
  Lemma mono_cnode n b : Mono (fun R => compile_node R n b). Proof. ev. now apply le_compile_node. Qed.
  Lemma mono_nodes n b : Mono (fun R => compile_nodes R n b). Proof. ev. now apply le_compile_nodes. Qed.
  Lemma mono_seq n k p : Mono (fun R => compile_sequence R n k p). Proof. ev. now apply le_compile_sequence. Qed.
  Lemma mono_tag n l c : Mono (fun R => compile_tag R n l c). Proof. ev. now apply le_compile_tag. Qed.
  Hint Resolve mono_items mono_attrs mono_let mono_vars mono_def mono_sig mono_binding mono_names mono_export mono_fence mono_cnode mono_nodes mono_seq mono_tag : mn.

  Lemma coerced A (m : evals -> EM A) (mk : A -> value) t s v s' : Mono m ->
    At (fun R => let* v := (let* a := m R in ret (mk a)) in or_report (coerceM v t)) s (Ok v s') <->
    exists a, At m s (Ok a s') /\ coerce t (mk a) = inl v.
  Proof.
    intro M. split.
    - intro H. apply (at_bind X value value (fun R => let* a := m R in ret (mk a)) (fun v _ => or_report (coerceM v t))) in H as (u & s1 & H1 & H2); auto with mn.
      apply at_const in H2. apply or_report_ok, coerceM_ok in H2 as [H2 ->].
      apply (at_bind X A value m (fun a _ => ret (mk a))) in H1 as (a & s2 & H1 & H3); auto with mn. apply at_const, ret_ok in H3 as [-> ->]. eauto.
    - intros (a & H & C). apply (at_bind X value value (fun R => let* a := m R in ret (mk a)) (fun v _ => or_report (coerceM v t))); auto with mn.
      exists (mk a), s'. split; [|now apply at_const, or_report_ok, coerceM_ok].
      apply (at_bind X A value m (fun a _ => ret (mk a))); auto with mn. exists a, s'. split; [exact H|]. now apply at_const.
  Qed.
  Lemma coerced_const w t s v s' : At (fun R => let* v := ret w in or_report (coerceM v t)) s (Ok v s') <-> s' = s /\ coerce t w = inl v.
  Proof.
    rewrite at_const, bind_ok. split.
    - intros (a & s1 & H1 & H2). apply ret_ok in H1 as [-> ->]. apply or_report_ok, coerceM_ok in H2. tauto.
    - intros [-> C]. exists w, s. split; [reflexivity|]. now apply or_report_ok, coerceM_ok.
  Qed.

  (** ** Lists *)
  Lemma items_spec u l : forall s vs s', At (fun R => list_items R l u) s (Ok vs s') <-> Items u l s vs s'.
  Proof.
    induction l as [|[e sp] l IH]; intros s vs s'.
    - cbn [list_items]. rewrite at_const, ret_ok. split; [intros [-> ->]; constructor|]. intro H; inversion H; auto.
    - cbn [list_items]. split.
      + intro H. apply (at_bind X _ _ (fun R => if sp then let* v := e_node R e (TList u) in to_list v else let* v := e_node R e u in ret [v])
                          (fun vs R => let* rest := list_items R l u in ret (vs ++ rest))) in H as (us & s1 & H1 & H2); [|destruct sp; auto with mn|auto with mn].
        apply (at_bind X _ _ (fun R => list_items R l u) (fun rest _ => ret (us ++ rest))) in H2 as (ws & s2 & H2 & H3); auto with mn.
        apply at_const, ret_ok in H3 as [-> ->]. apply IH in H2. destruct sp.
        * apply (at_bind X _ _ (fun R => e_node R e (TList u)) (fun v _ => to_list v)) in H1 as (v & s3 & H1 & H3); auto with mn.
          apply at_const in H3. destruct v; try discriminate. inversion H3; subst. eapply it_spread; eauto.
        * apply (at_bind X _ _ (fun R => e_node R e u) (fun v _ => ret [v])) in H1 as (v & s3 & H1 & H3); auto with mn.
          apply at_const, ret_ok in H3 as [-> ->]. eapply it_item; eauto.
      + intro H. apply (at_bind X _ _ (fun R => if sp then let* v := e_node R e (TList u) in to_list v else let* v := e_node R e u in ret [v])
                          (fun vs R => let* rest := list_items R l u in ret (vs ++ rest))); [destruct sp; auto with mn|auto with mn|].
        inversion H; subst.
        * exists [v], s1. split.
          { apply (at_bind X _ _ (fun R => e_node R e u) (fun v _ => ret [v])); auto with mn. exists v, s1. split; [assumption|now apply at_const]. }
          apply (at_bind X _ _ (fun R => list_items R l u) (fun rest _ => ret ([v] ++ rest))); auto with mn.
          exists vs0, s'. split; [now apply IH|now apply at_const].
        * exists us, s1. split.
          { apply (at_bind X _ _ (fun R => e_node R e (TList u)) (fun v _ => to_list v)); auto with mn. exists (VList us), s1. split; [assumption|now apply at_const]. }
          apply (at_bind X _ _ (fun R => list_items R l u) (fun rest _ => ret (us ++ rest))); auto with mn.
          exists vs0, s'. split; [now apply IH|now apply at_const].
  Qed.
  Lemma element_type t u : ElementType t u <-> u = component_type t.
  Proof.
    split.
    - induction 1; cbn; auto. cbn in H. repeat (destruct H as [<-|H]; [reflexivity|]). destruct H.
    - intros ->. induction t; cbn; constructor; auto; cbn; auto 12.
  Qed.
  Lemma yields_list l t s v s' : Yields (EList l) t s v s' <-> exists u vs, ElementType t u /\ Items u l s vs s' /\ coerce t (VList vs) = inl v.
  Proof.
    rewrite yields_at. cbn [evaluate_node]. unfold evaluate_list. split.
    - intro H. apply (at_bind X _ _ (fun R => list_items R l (component_type t)) (fun vs _ => or_report (coerceM (VList vs) t))) in H as (vs & s1 & H1 & H2); auto with mn.
      apply at_const, or_report_ok, coerceM_ok in H2 as [H2 ->]. exists (component_type t), vs. split; [now apply element_type|]. split; [now apply items_spec|exact H2].
    - intros (u & vs & E & H & C). apply element_type in E as ->.
      apply (at_bind X _ _ (fun R => list_items R l (component_type t)) (fun vs _ => or_report (coerceM (VList vs) t))); auto with mn.
      exists vs, s'. split; [now apply items_spec|]. now apply at_const, or_report_ok, coerceM_ok.
  Qed.
  Lemma yields_template ps t s v s' : Yields (ETemplate ps) t s v s' <-> s' = s /\ exists x, TextOf s ps x /\ coerce t (VStr x) = inl v.
  Proof.
    rewrite yields_at. cbn [evaluate_node].
    rewrite (coerced str (fun _ => template_text ps) VStr); auto with mn. split.
    - intros (x & H & C). apply at_const, template_spec in H as [-> H]. eauto.
    - intros [-> (x & H & C)]. exists x. split; [|exact C]. now apply at_const, template_spec.
  Qed.
  Lemma yields_name n t s v s' : Yields (EName n) t s v s' <-> s' = s /\ exists w, Names s n w /\ coerce t w = inl v.
  Proof. rewrite yields_at. cbn [evaluate_node]. rewrite at_const. apply names_spec. Qed.
  Lemma yields_literal e w t s v s' : Literal e w -> Yields e t s v s' <-> s' = s /\ coerce t w = inl v.
  Proof.
    intro L. rewrite yields_at. destruct L; cbn [evaluate_node]; try apply coerced_const.
    rewrite coerced_const, verbatim_trim by assumption. reflexivity.
  Qed.

  (** ** Tags *)
  Lemma tag_name_spec n s x s' : compile_tag_name n s = Ok x s' <-> s' = s /\ TagNamed s n x.
  Proof.
    destruct n as [n|n]; cbn [compile_tag_name].
    - rewrite ret_ok. split; [intros [-> ->]; split; [reflexivity|constructor]|intros [-> H]; inversion H; auto].
    - rewrite bind_ok. split.
      + intros (v & s1 & H1 & H2). apply names_spec in H1 as [-> (u & N & C)]. apply bind_ok in H2 as (y & s2 & H2 & H3).
        destruct v; try discriminate. cbn in H2. inversion H2; subst. clear H2.
        destruct (is_identifier y) eqn:I; [apply ret_ok in H3 as [-> ->]; split; [reflexivity|]; now apply tn_name with u|].
        destruct (str_eqb _ _) eqn:D; [|discriminate]. apply ret_ok in H3 as [-> ->]. split; [reflexivity|].
        apply tn_doctype with u y; auto. now apply str_eqb_eq.
      + intros [-> H]. inversion H; subst.
        * exists (VStr n0), s. split; [apply names_spec; split; eauto|]. apply bind_ok. exists n0, s. split; [reflexivity|].
          match goal with I : is_identifier n0 = true |- _ => rewrite I end. reflexivity.
        * exists (VStr n0), s. split; [apply names_spec; split; eauto|]. apply bind_ok. exists n0, s. split; [reflexivity|].
          destruct (is_identifier n0) eqn:I.
          { exfalso. match goal with D : List.map to_ascii_lower n0 = _ |- _ => rename D into H4 end. apply (f_equal (fun l => hd 0%N l)) in H4. destruct n0 as [|c n0]; [discriminate|]. cbn in H4, I.
            unfold to_ascii_lower in H4. apply andb_true_iff in I as [I _]. destruct (is_ascii_upper c) eqn:U; [|subst c; discriminate].
            unfold is_ascii_upper in U. apply andb_true_iff in U as [U _]. apply N.leb_le in U. cbn in U. lia. }
          match goal with D : List.map to_ascii_lower n0 = _ |- _ => rewrite D end. reflexivity.
  Qed.
  Lemma add_attr_ok a n v s a' s' : add_attr a n v s = Ok a' s' <-> s' = s /\ ~ In n (nkeys a) /\ a' = a ++ [(n, v)].
  Proof.
    unfold add_attr. destruct (nhas a n) eqn:E.
    - split; [discriminate|]. intros (_ & N & _). apply nhas_true in E as [x E]. destruct N. unfold nkeys. apply ngetm_In in E. now apply (in_map fst) in E.
    - rewrite ret_ok. apply nhas_false in E. assert (N : ~ In n (nkeys a)) by now apply ngetm_None.
      rewrite (ninsert_new a n v E). split; [intros [-> ->]; auto|intros (-> & _ & ->); auto].
  Qed.
  Lemma add_attrs_ok d : forall a s a' s', NoDup (nkeys a) -> add_attrs a d s = Ok a' s' <-> s' = s /\ NoDup (nkeys (a ++ d)) /\ a' = a ++ d.
  Proof.
    induction d as [|[n v] d IH]; intros a s a' s' ND.
    - cbn [add_attrs]. rewrite app_nil_r, ret_ok. tauto.
    - cbn [add_attrs]. rewrite bind_ok.
      assert (G : ~ In n (nkeys a) -> NoDup (nkeys (a ++ [(n, v)]))).
      { intro N. unfold nkeys. rewrite map_app. apply nodup_snoc; split; assumption. }
      split.
      + intros (a1 & s1 & H1 & H2). apply add_attr_ok in H1 as (-> & N & ->). apply IH in H2 as (-> & N2 & ->); [|auto].
        rewrite <- app_assoc in N2 |- *. auto.
      + intros (-> & N2 & ->). assert (N : ~ In n (nkeys a)).
        { unfold nkeys in N2. rewrite map_app in N2. cbn in N2. apply NoDup_remove_2 in N2. intro I. apply N2, in_app_iff. now left. }
        exists (a ++ [(n, v)]), s. split; [now apply add_attr_ok|]. apply IH; [auto|]. rewrite <- app_assoc. auto.
  Qed.
  Lemma each_opt vs : forall s l s', to_each (fun v => to_opt to_str v) vs s = Ok l s' <-> s' = s /\ vs = List.map group_value l.
  Proof.
    induction vs as [|v vs IH]; intros s l s'; cbn [to_each].
    - rewrite ret_ok. split; [intros [-> ->]; auto|intros [-> H]]. destruct l; [auto|discriminate].
    - rewrite bind_ok. split.
      + intros (a & s1 & H1 & H2). apply to_opt_str in H1 as [-> ->]. apply bind_ok in H2 as (l' & s2 & H2 & H3). apply IH in H2 as [-> ->].
        apply ret_ok in H3 as [-> ->]. auto.
      + intros [-> H]. destruct l as [|a l]; [discriminate|]. cbn in H. inversion H; subst. exists a, s. split; [now apply to_opt_str|].
        apply bind_ok. exists l, s. split; [now apply IH|reflexivity].
  Qed.
  Lemma attrs_values vs l : nvalues vs = List.map group_value l -> vs = attr_values (combine (nkeys vs) l).
  Proof.
    revert l. induction vs as [|[n v] vs IH]; intros [|x l] H; try discriminate; [reflexivity|]. cbn in H. inversion H.
    cbn. f_equal. now apply IH.
  Qed.
  Lemma attrs_spec l : forall a s a' s', NoDup (nkeys a) -> At (fun R => compile_attrs R l a) s (Ok a' s') <-> Attributes l a s a' s'.
  Proof.
    induction l as [|x l IH]; intros a s a' s' ND.
    - cbn [compile_attrs]. rewrite at_const, ret_ok. split; [intros [-> ->]; constructor|]. intro H; inversion H; auto.
    - cbn [compile_attrs].
      set (one := fun R => match x with
        | TAttr n question_mark (Some e) =>
          let* v := e_node R e (t_option_if TStr question_mark) in
          let* s := to_opt to_str v in
          match s with Some s => add_attr a n (Some s) | None => ret a end
        | TAttr n _ None => add_attr a n None
        | TSpread e =>
          let* v := e_node R e (TDict (t_option TStr)) in
          let* vs := to_dict v in
          let* l := to_each (fun v => to_opt to_str v) (nvalues vs) in
          add_attrs a (combine (nkeys vs) l)
        end).
      assert (Mo : Mono one) by (unfold one; destruct x as [n q [e|]|e]; auto with mn).
      assert (One : forall b s1, At one s (Ok b s1) <->
        match x with
        | TAttr n q (Some e) => (exists y, Yields e (t_option_if TStr q) s (VStr y) s1 /\ ~ In n (nkeys a) /\ b = a ++ [(n, Some y)]) \/
            Yields e (t_option_if TStr q) s UNIT s1 /\ b = a
        | TAttr n _ None => s1 = s /\ ~ In n (nkeys a) /\ b = a ++ [(n, None)]
        | TSpread e => exists d, Yields e (TDict (TOptional TStr)) s (VDict (attr_values d)) s1 /\ NoDup (nkeys (a ++ d)) /\ b = a ++ d
        end).
      { intros b s1. unfold one. destruct x as [n q [e|]|e].
        - rewrite (at_bind X _ _ (fun R => e_node R e (t_option_if TStr q)) (fun v _ => let* s := to_opt to_str v in
            match s with Some s => add_attr a n (Some s) | None => ret a end)); auto with mn. split.
          + intros (v & s2 & H1 & H2). apply at_const, bind_ok in H2 as (o & s3 & H2 & H3). apply to_opt_str in H2 as [-> ->].
            destruct o as [o|]; [left; apply add_attr_ok in H3 as (-> & N & ->); eauto|right; apply ret_ok in H3 as [-> ->]; split; [exact H1|reflexivity]].
          + intros [(y & H & N & ->)|[H ->]].
            * exists (VStr y), s1. split; [exact H|]. apply at_const, bind_ok. exists (Some y), s1. split; [reflexivity|]. now apply add_attr_ok.
            * exists UNIT, s1. split; [exact H|]. apply at_const, bind_ok. exists None, s1. split; reflexivity.
        - rewrite at_const. apply add_attr_ok.
        - rewrite (at_bind X _ _ (fun R => e_node R e (TDict (t_option TStr))) (fun v _ => let* vs := to_dict v in
            let* l := to_each (fun v => to_opt to_str v) (nvalues vs) in add_attrs a (combine (nkeys vs) l))); auto with mn. split.
          + intros (v & s2 & H1 & H2). apply at_const, bind_ok in H2 as (vs & s3 & H2 & H3). destruct v; try discriminate.
            cbn in H2. inversion H2; subst; clear H2. apply bind_ok in H3 as (os & s2 & H3 & H4). apply each_opt in H3 as [-> H3].
            apply add_attrs_ok in H4 as (-> & N & ->); [|exact ND]. exists (combine (nkeys vs) os). rewrite <- attrs_values by exact H3. auto.
          + intros (d & H & N & ->). exists (VDict (attr_values d)), s1. split; [exact H|]. apply at_const, bind_ok. exists (attr_values d), s1.
            split; [reflexivity|]. apply bind_ok. exists (List.map snd d), s1. split; [apply each_attrs|]. rewrite keys_attrs. now apply add_attrs_ok. }
      assert (G : forall b, (exists s1, At one s (Ok b s1)) -> NoDup (nkeys b)).
      { intros b [s1 H]. apply One in H. assert (Sn : forall n (v : option str), ~ In n (nkeys a) -> NoDup (nkeys (a ++ [(n, v)]))).
        { intros n v N. unfold nkeys. rewrite map_app. apply nodup_snoc; split; assumption. }
        destruct x as [n q [e|]|e].
        - destruct H as [(y & _ & N & ->)|[_ ->]]; auto.
        - destruct H as (_ & N & ->); auto.
        - destruct H as (d & _ & N & ->); auto. }
      split.
      + intro H. apply (at_bind X _ _ one (fun b R => compile_attrs R l b)) in H as (b & s1 & H1 & H2); auto with mn.
        apply IH in H2; [|eauto]. apply One in H1. destruct x as [n q [e|]|e].
        * destruct H1 as [(y & H1 & N & ->)|[H1 ->]].
          { eapply at_value; eauto. }
          eapply at_nothing; eauto.
        * destruct H1 as (-> & N & ->). now apply at_flag.
        * destruct H1 as (d & H1 & N & ->). eapply at_spread; eauto.
      + intro H. apply (at_bind X _ _ one (fun b R => compile_attrs R l b)); auto with mn.
        inversion H; subst.
        * eexists _, _. assert (O : At one s (Ok (a ++ [(n, None)]) s)) by now apply One. split; [exact O|]. apply IH; [eauto|assumption].
        * eexists _, s1. assert (O : At one s (Ok (a ++ [(n, Some x0)]) s1)). { apply One. left. exists x0. split; [now destruct q|auto]. }
          split; [exact O|]. apply IH; [eauto|assumption].
        * eexists _, s1. assert (O : At one s (Ok a s1)). { apply One. right. split; [now destruct q|reflexivity]. }
          split; [exact O|]. apply IH; [eauto|assumption].
        * eexists _, s1. assert (O : At one s (Ok (a ++ d) s1)). { apply One. exists d. auto. }
          split; [exact O|]. apply IH; [eauto|assumption].
  Qed.
  Lemma yields_tag n l ns t s v s' : Yields (ETag n l ns) t s v s' <->
    exists x a s1 c, TagNamed s n x /\ Attributes l [] s a s1 /\ At (fun R => compile_sequence R ns (content_kind_for x) (Some x)) s1 (Ok c s') /\
      coerce t (VHtml (HTag x a c)) = inl v.
  Proof.
    rewrite yields_at. cbn [evaluate_node]. rewrite (coerced _ (fun R => compile_tag R n l ns) VHtml); auto with mn.
    assert (T : forall h s', At (fun R => compile_tag R n l ns) s (Ok h s') <-> exists x a s1 c, TagNamed s n x /\ Attributes l [] s a s1 /\
       At (fun R => compile_sequence R ns (content_kind_for x) (Some x)) s1 (Ok c s') /\ h = HTag x a c).
    { intros h s0. unfold compile_tag.
      rewrite (at_bind X _ _ (fun _ => compile_tag_name n) (fun n R => let* attrs := compile_attrs R l [] in
        let* c := compile_sequence R ns (content_kind_for n) (Some n) in ret (HTag n attrs c))); auto 8 with mn. split.
      - intros (x & s1 & H1 & H2). apply at_const, tag_name_spec in H1 as [-> H1].
        apply (at_bind X _ _ (fun R => compile_attrs R l []) (fun attrs R =>
          let* c := compile_sequence R ns (content_kind_for x) (Some x) in ret (HTag x attrs c))) in H2 as (a & s1 & H2 & H3); auto with mn.
        apply (at_bind X _ _ (fun R => compile_sequence R ns (content_kind_for x) (Some x)) (fun c _ => ret (HTag x a c))) in H3 as (c & s2 & H3 & H4); auto with mn.
        apply at_const, ret_ok in H4 as [-> ->]. apply attrs_spec in H2; [|constructor]. now exists x, a, s1, c.
      - intros (x & a & s1 & c & H1 & H2 & H3 & ->). exists x, s. split; [now apply at_const, tag_name_spec|].
        apply (at_bind X _ _ (fun R => compile_attrs R l []) (fun attrs R =>
          let* c := compile_sequence R ns (content_kind_for x) (Some x) in ret (HTag x attrs c))); auto with mn.
        exists a, s1. split; [apply attrs_spec; [constructor|exact H2]|].
        apply (at_bind X _ _ (fun R => compile_sequence R ns (content_kind_for x) (Some x)) (fun c _ => ret (HTag x a c))); auto with mn.
        exists c, s0. split; [exact H3|now apply at_const]. }
    split.
    - intros (h & H & C). apply T in H as (x & a & s1 & c & H1 & H2 & H3 & ->). now exists x, a, s1, c.
    - intros (x & a & s1 & c & H1 & H2 & H3 & C). exists (HTag x a c). split; [|exact C]. apply T. now exists x, a, s1, c.
  Qed.
  Lemma yields_group ns t s v s' : Yields (EGroup ns) t s v s' <->
    exists h, At (fun R => compile_sequence R ns (AllowBlock n_p) None) s (Ok h s') /\ coerce t (of_html h) = inl v.
  Proof. rewrite yields_at. cbn [evaluate_node]. rewrite (coerced _ (fun R => compile_sequence R ns (AllowBlock n_p) None) of_html); auto with mn. reflexivity. Qed.

  (** ** Scopes *)
  Lemma at_in_call A (m : evals -> EM A) i bs s a s' : At (fun R => in_call_frame i bs (m R)) s (Ok a s') <->
    i < length (st_heap s) /\ exists s1, At m (entered i bs s) (Ok a s1) /\ s' = left_scope s1.
  Proof.
    split.
    - intros [f H]. rewrite in_call_frame_eq in H. destruct (i <? length (st_heap s)) eqn:L; [|discriminate].
      apply Nat.ltb_lt in L. split; [exact L|]. change (push_scope i bs s) with (entered i bs s) in H.
      destruct (m (evals_n X f) (entered i bs s)) as [b s1| | |] eqn:E; try discriminate. inversion H; subst. exists s1. split; [now exists f|reflexivity].
    - intros (L & s1 & [f H] & ->). exists f. rewrite in_call_frame_eq. apply Nat.ltb_lt in L. rewrite L.
      change (push_scope i bs s) with (entered i bs s). rewrite H. reflexivity.
  Qed.
  Lemma frame_id_ok s i s' : frame_id s = Ok i s' <-> hd_error (st_stack s) = Some i /\ s' = s.
  Proof. unfold frame_id. destruct (st_stack s) as [|j l]; cbn; split; intro H; try discriminate; try (inversion H; auto; fail); destruct H as [[= <-] ->]; reflexivity. Qed.
  Lemma mono_in_call A (m : evals -> EM A) i bs : Mono m -> Mono (fun R => in_call_frame i bs (m R)).
  Proof. intros M f f' L. apply le_in_call_frame. now apply M. Qed.
  Hint Resolve mono_in_call : mn.
  Lemma at_in_child A (m : evals -> EM A) s a s' : Mono m -> At (fun R => in_child_frame (m R)) s (Ok a s') <->
    exists i s1, hd_error (st_stack s) = Some i /\ i < length (st_heap s) /\ At m (entered i [] s) (Ok a s1) /\ s' = left_scope s1.
  Proof.
    intro M. unfold in_child_frame. rewrite (at_bind X _ _ (fun _ => frame_id) (fun i R => in_call_frame i [] (m R))); auto with mn. split.
    - intros (i & s1 & H1 & H2). apply at_const, frame_id_ok in H1 as [H1 ->]. apply at_in_call in H2 as (L & s2 & H2 & ->). now exists i, s2.
    - intros (i & s1 & H1 & L & H2 & ->). exists i, s. split; [now apply at_const, frame_id_ok|]. apply at_in_call. split; [exact L|]. now exists s1.
  Qed.
  Lemma export_ok n v s a s' : M_State.export n v s = Ok a s' <-> s' = exported n v s.
  Proof.
    destruct a. unfold M_State.export, bind, gets, modify, exported. destruct (nhas (st_exports s) n); cbn; split; intro H; try (now inversion H); subst; reflexivity.
  Qed.
  Lemma unit_ok (a : unit) : a = tt. Proof. now destruct a. Qed.
  Lemma vars_spec imp ex l : forall s a s', At (fun R => let_vars R l imp ex) s (Ok a s') <-> Introduces X imp ex l s s'.
  Proof.
    induction l as [|[n e] l IH]; intros s a s'; rewrite (unit_ok a).
    - cbn [let_vars]. rewrite at_const, ret_ok. split; [intros [_ ->]; constructor|]. intro H; inversion H; auto.
    - cbn [let_vars].
      rewrite (at_bind X _ _ (fun R => e_node R e TAny) (fun v R => (if ex then M_State.export n v else ret tt);;; set_var n v imp;;; let_vars R l imp ex)); [|auto with mn|auto 8 with mn].
      assert (E : forall v s1 a s2, (if ex then M_State.export n v else ret tt) s1 = Ok a s2 <-> s2 = if ex then exported n v s1 else s1).
      { intros. destruct ex; [apply export_ok|]. rewrite (unit_ok a0), ret_ok. tauto. }
      split.
      + intros (v & s1 & H1 & H2). apply (at_bind X _ _ (fun _ => if ex then M_State.export n v else ret tt) (fun _ R => set_var n v imp;;; let_vars R l imp ex)) in H2
          as (u & s2 & H2 & H3); auto with mn. apply at_const, E in H2 as ->.
        apply (at_bind X _ _ (fun _ => set_var n v imp) (fun _ R => let_vars R l imp ex)) in H3 as (w & s3 & H3 & H4); auto with mn.
        rewrite (unit_ok w) in H3. apply at_const in H3. eapply dc_var; eauto. now apply IH in H4.
      + intro H. inversion H; subst. exists v, s1. split; [assumption|].
        apply (at_bind X _ _ (fun _ => if ex then M_State.export n v else ret tt) (fun _ R => set_var n v imp;;; let_vars R l imp ex)); auto with mn.
        exists tt. eexists. split; [apply at_const, E; reflexivity|].
        apply (at_bind X _ _ (fun _ => set_var n v imp) (fun _ R => let_vars R l imp ex)); auto with mn.
        exists tt, s2. split; [now apply at_const|]. now apply IH.
  Qed.
  Lemma let_spec ex l t s v s' : At (fun R => evaluate_let_in R l t ex) s (Ok v s') <-> LetYields X ex l t s v s'.
  Proof.
    destruct l as [imp vars body]. cbn [evaluate_let_in]. rewrite (at_in_child _ (fun R => let_vars R vars imp ex;;; e_node R body t)); auto with mn. split.
    - intros (i & s1 & H1 & L & H2 & ->). apply (at_bind X _ _ (fun R => let_vars R vars imp ex) (fun _ R => e_node R body t)) in H2 as (a & s2 & H2 & H3); auto with mn.
      apply vars_spec in H2. econstructor; eauto.
    - intro H. inversion H; subst. exists i, s2. do 2 (split; [assumption|]). split; [|reflexivity].
      apply (at_bind X _ _ (fun R => let_vars R vars imp ex) (fun _ R => e_node R body t)); auto with mn.
      exists tt, s1. split; [now apply vars_spec|assumption].
  Qed.
  Lemma yields_let l t s v s' : Yields (ELetIn l) t s v s' <-> LetYields X false l t s v s'.
  Proof. rewrite yields_at. cbn [evaluate_node]. apply let_spec. Qed.
  Lemma calls_closure n c sig body bs t src s v s' : Calls X (FClosure n c sig body) bs t src s v s' <->
    c < length (st_heap s) /\ exists s1, Yields body t (entered c bs s) v s1 /\ s' = left_scope s1.
  Proof. rewrite calls_at. cbn [evaluate_call]. rewrite (at_in_call _ (fun R => e_node R body t)). reflexivity. Qed.
  Lemma calls_bound f ps bs t src s v s' : Calls X (FBound f ps) bs t src s v s' <-> Calls X f bs t src s v s'.
  Proof. rewrite !calls_at. reflexivity. Qed.

  (** ** Functions *)
  Lemma def_spec d s f s' : At (fun R => compile_func_def (e_node R) d) s (Ok f s') <-> Defines X d s f s'.
  Proof.
    destruct d as [n sg body]. cbn [compile_func_def].
    rewrite (at_bind X _ _ (fun _ => frame_id) (fun closure R => let* sig := compile_func_signature (e_node R) sg in ret (FClosure n closure sig body))); auto with mn. split.
    - intros (i & s1 & H1 & H2). apply at_const, frame_id_ok in H1 as [H1 ->].
      apply (at_bind X _ _ (fun R => compile_func_signature (e_node R) sg) (fun sig _ => ret (FClosure n i sig body))) in H2 as (sig & s2 & [fu H2] & H3); auto with mn.
      apply at_const, ret_ok in H3 as [-> ->]. econstructor; eauto.
    - intro H. inversion H; subst. exists i, s. split; [now apply at_const, frame_id_ok|].
      apply (at_bind X _ _ (fun R => compile_func_signature (e_node R) sg) (fun sig _ => ret (FClosure n i sig body))); auto with mn.
      exists sig, s'. split; [now exists fuel|now apply at_const].
  Qed.
  Lemma yields_def d t s v s' : Yields (EFuncDef d) t s v s' <-> exists f, Defines X d s f s' /\ t_is_html t = false /\ coerce t (VFunc f) = inl v.
  Proof.
    rewrite yields_at. cbn [evaluate_node].
    rewrite (at_bind X _ _ (fun R => compile_func_def (e_node R) d) (fun f _ => if t_is_html t then report (TypeErr (ExpectedWas t TFunction));;; fail AlreadyReported
      else let* v := ret (VFunc f) in or_report (coerceM v t))); auto with mn. split.
    - intros (f & s1 & H1 & H2). apply def_spec in H1. apply at_const in H2. destruct (t_is_html t); [discriminate|].
      apply bind_ok in H2 as (w & s2 & H2 & H3). apply ret_ok in H2 as [-> ->]. apply or_report_ok, coerceM_ok in H3 as [H3 ->]. eauto.
    - intros (f & H & T & C). exists f, s'. split; [now apply def_spec|]. apply at_const. rewrite T. apply bind_ok. exists (VFunc f), s'.
      split; [reflexivity|]. now apply or_report_ok, coerceM_ok.
  Qed.
  Lemma or_report_at A (m : evals -> EM A) s a s' : At (fun R => or_report (m R)) s (Ok a s') <-> At m s (Ok a s').
  Proof. split; intros [f H]; exists f; [exact (proj1 (or_report_ok _ _ _ _) H)|exact (proj2 (or_report_ok _ _ _ _) H)]. Qed.
  Lemma mono_report A (m : evals -> EM A) : Mono m -> Mono (fun R => or_report (m R)).
  Proof. intros M f f' L. apply le_or_report. now apply M. Qed.
  Hint Resolve mono_report : mn.
  Lemma yields_call src f args content t s v s' : Yields (EFuncCall src f args content) t s v s' <->
    (exists g bs s1, Names s f (VFunc g) /\ Binding X g args content s bs s1 /\ Calls X g bs t src s1 v s') \/
    Names s f UNIT /\ is_coalescing f = true /\ v = UNIT /\ s' = s.
  Proof.
    rewrite yields_at. cbn [evaluate_node]. unfold evaluate_func_call.
    rewrite (at_bind X _ _ (fun _ => evaluate_name f (t_option_if TFunction (is_coalescing f))) (fun v R => let* f := to_opt to_func v in
      match f with None => ret UNIT | Some f => let* bs := or_report (bind_call (e_node R) f args content) in e_call R f bs t src end)); auto with mn.
    2:{ intro w. apply mono_bind; auto with mn. intros [g|]; auto with mn. }
    split.
    - intros (w & s1 & H1 & H2). apply at_const, names_spec in H1 as [-> (u & N & C)].
      apply (at_bind X _ _ (fun _ => to_opt to_func w) (fun f R => match f with None => ret UNIT
        | Some f => let* bs := or_report (bind_call (e_node R) f args content) in e_call R f bs t src end)) in H2 as (o & s1 & H2 & H3); auto with mn.
      2:{ intros [g|]; auto with mn. }
      apply at_const, to_opt_func in H2 as [-> H2]. destruct o as [g|]; subst w.
      + left. apply coerce_func in C as ->.
        apply (at_bind X _ _ (fun R => or_report (bind_call (e_node R) g args content)) (fun bs R => e_call R g bs t src)) in H3 as (bs & s1 & H3 & H4); auto with mn.
        apply (proj1 (or_report_at _ (fun R => bind_call (e_node R) g args content) _ _ _)) in H3. exists g, bs, s1. split; [exact N|split; [exact H3|exact H4]].
      + right. apply at_const, ret_ok in H3 as [-> ->]. apply coerce_func_unit in C as [-> C]. auto.
    - intros [(g & bs & s1 & N & B & C)|(N & K & -> & ->)].
      + exists (VFunc g), s. split; [apply at_const, names_spec; split; [reflexivity|]; exists (VFunc g); split; [exact N|]; now destruct (is_coalescing f)|].
        apply (at_bind X _ _ (fun _ => to_opt to_func (VFunc g)) (fun f R => match f with None => ret UNIT
          | Some f => let* bs := or_report (bind_call (e_node R) f args content) in e_call R f bs t src end)); auto with mn; [intros [g'|]; auto with mn|].
        exists (Some g), s. split; [now apply at_const|].
        apply (at_bind X _ _ (fun R => or_report (bind_call (e_node R) g args content)) (fun bs R => e_call R g bs t src)); auto with mn.
        exists bs, s1. split; [exact (proj2 (or_report_at _ (fun R => bind_call (e_node R) g args content) _ _ _) B)|exact C].
      + exists UNIT, s. split; [apply at_const, names_spec; split; [reflexivity|]; exists UNIT; split; [exact N|]; now rewrite K|].
        apply (at_bind X _ _ (fun _ => to_opt to_func UNIT) (fun f R => match f with None => ret UNIT
          | Some f => let* bs := or_report (bind_call (e_node R) f args content) in e_call R f bs t src end)); auto with mn; [intros [g'|]; auto with mn|].
        exists None, s. split; now apply at_const.
  Qed.
End Run.

(** ** Failures *)
(** errors have been reported *)
Definition Rep {A} (m : EM A) : Prop := forall s e s', m s = Err e s' -> e = AlreadyReported.
Lemma rep_bind {A B} (m : EM A) (k : A -> EM B) : Rep m -> (forall a, Rep (k a)) -> Rep (bind m k).
Proof. intros M K s e s' H. unfold bind in H. destruct (m s) eqn:E; try discriminate; [eapply K; eauto|]. injection H as <- <-. eauto. Qed.
Lemma rep_or {A} (m : EM A) : Rep (or_report m).
Proof. intros s e s' H. unfold or_report in H. destruct (m s); congruence. Qed.
Lemma rep_ret {A} (a : A) : Rep (ret a). Proof. discriminate. Qed.
Lemma rep_catch {A} (m : EM A) : Rep (catch m). Proof. intros s e s' H. unfold catch in H. destruct (m s); discriminate. Qed.
Lemma rep_report e : Rep (report e). Proof. discriminate. Qed.
Lemma rep_fail {A} : Rep (fail (A := A) AlreadyReported). Proof. intros s e s' H. now inversion H. Qed.
Lemma rep_crash {A} f : Rep (crash (A := A) f). Proof. discriminate. Qed.
Lemma rep_pure {A} f (o : outcome A) : Rep (pure f o). Proof. intros s e s' H. unfold pure in H. destruct o; discriminate. Qed.
Lemma rep_frame_id : Rep frame_id. Proof. intros s e s' H. unfold frame_id in H. destruct (st_stack s); discriminate. Qed.
Lemma rep_call {A} i bs (m : EM A) : Rep m -> Rep (in_call_frame i bs m).
Proof.
  intros M s e s' H. rewrite in_call_frame_eq in H. destruct (_ <? _); [|discriminate]. destruct (m _) eqn:E; try discriminate.
  injection H as <- _. eauto.
Qed.
Lemma rep_gets {A} (f : st -> A) : Rep (gets f). Proof. discriminate. Qed.
Lemma rep_modify f : Rep (modify f). Proof. discriminate. Qed.
Ltac rep := repeat first
  [ apply rep_or | apply rep_ret | apply rep_catch | apply rep_report | apply rep_fail | apply rep_crash | apply rep_pure | apply rep_frame_id | apply rep_gets | apply rep_modify
  | apply rep_call | apply rep_bind; [|intro] | progress intros | assumption
  | match goal with |- Rep (match ?x with _ => _ end) => destruct x end | match goal with |- Rep (if ?x then _ else _) => destruct x end ].
Lemma rep_frame_set n v i : Rep (frame_set n v i).
Proof. unfold frame_set, frame_has, with_frame. rep. Qed.
Lemma rep_bind_one n v : Rep (bind_one n v).
Proof. unfold bind_one. apply rep_bind; [apply rep_frame_set|]. rep. Qed.
Lemma rep_set_var n v i : Rep (set_var n v i).
Proof. unfold set_var. apply rep_bind; [apply rep_frame_set|]. rep. Qed.
Lemma rep_export n v : Rep (M_State.export n v).
Proof. unfold M_State.export. rep. Qed.
Lemma rep_and a b : Rep a -> Rep b -> Rep (and_then a b).
Proof. intros. unfold and_then. rep. Qed.
Lemma rep_child {A} (m : EM A) : Rep m -> Rep (in_child_frame m).
Proof. intro. unfold in_child_frame. rep. Qed.
Lemma rep_name n t : Rep (evaluate_name n t).
Proof. destruct n; cbn [evaluate_name]; apply rep_or. Qed.
Ltac rep1 := repeat first [ progress rep | apply rep_bind_one | apply rep_set_var | apply rep_export | apply rep_and | apply rep_child | apply rep_name | solve [auto] ].
Section RepMatch.
  Variable eval : expr -> ty -> EM value.
  Variable captures : str -> str -> option (list (option str)).
  Hypothesis Heval : forall e t, Rep (eval e t).
  Notation bp := (bind_pattern eval captures).
  Lemma rep_bind_all ps : Forall (fun p => forall v, Rep (bp p v)) ps -> forall vs, Rep (bind_all bp ps vs).
  Proof. intro H. induction H; intros [|v vs]; cbn [bind_all]; rep1. Qed.
  Lemma rep_bind_spread A one mk ps : Forall (fun p => forall v, Rep (bp p v)) ps -> forall i vs, Rep (bind_spread bp A one mk ps i vs).
  Proof.
    intro H. induction H as [|p ps Hp H IH]; intros i vs; cbn [bind_spread]; [rep1|]. destruct i as [|i].
    - apply rep_and; [apply Hp|]. now apply rep_bind_all.
    - destruct vs; rep1.
  Qed.
  Lemma rep_groups gs : forall ns, Rep (bind_groups gs ns).
  Proof. induction gs as [|g gs IH]; intros [|n ns]; cbn [bind_groups]; rep1. Qed.
  Lemma rep_pattern : forall p v, Rep (bp p v).
  Proof.
    induction p using pattern_ind'; intro v.
    1-10: cbn [bind_pattern]; unfold with_frame; rep1; try apply rep_groups.
    - rewrite !bp_exact_list. pose proof (rep_bind_all ps H). rep1.
    - rewrite !bp_spread_list. pose proof (rep_bind_spread value (fun v => v) VList ps H). rep1.
    - rewrite !bp_dict. destruct v; try solve [rep1]. destruct (match r with None => _ | _ => _ end); [rep1|].
      apply rep_and.
      + clear H0. induction H as [|[n p] l Hp H IH]; cbn [bind_attrs]; [rep1|]. cbn [snd] in Hp. destruct (ngetm _ n); [apply rep_and; [apply Hp|exact IH]|apply rep_ret].
      + destruct r as [p|]; [|rep1]. specialize (H0 p eq_refl). destruct p; first [apply H0 | apply rep_ret].
    - cbn [bind_pattern]. rep1.
    - rewrite !bp_exact_html. pose proof (rep_bind_all ps H). rep1.
    - rewrite !bp_spread_html. pose proof (fun A one mk => rep_bind_spread A one mk ps H). rep1.
  Qed.
  Lemma rep_branches bs : forall v t, Rep (match_branches eval captures bs v t).
  Proof. induction bs as [|[p e] bs IH]; intros v t; cbn [match_branches]; [rep1|]. apply rep_bind; [|rep1]. apply rep_child, rep_bind; [apply rep_pattern|]. rep1. Qed.
  Lemma rep_params ps : Rep (compile_params eval ps).
  Proof. induction ps as [|[] ps IH]; cbn [compile_params compile_param]; rep1. Qed.
  Lemma rep_def d : Rep (compile_func_def eval d).
  Proof. destruct d as [n [] b]. cbn [compile_func_def compile_func_signature]. pose proof rep_params. rep1. Qed.
End RepMatch.

Section Failures.
  Variable X : externals.
  Lemma rep_let_vars R l imp ex : (forall e t, Rep (e_node R e t)) -> Rep (let_vars R l imp ex).
  Proof. intro H. induction l as [|[n e] l IH]; cbn [let_vars]; rep1. Qed.
  Lemma rep_let R l t ex : (forall e t, Rep (e_node R e t)) -> Rep (evaluate_let_in R l t ex).
  Proof. intro H. destruct l. cbn [evaluate_let_in]. apply rep_child, rep_bind; [now apply rep_let_vars|]. rep1. Qed.
  Lemma rep_items R l u : (forall e t, Rep (e_node R e t)) -> Rep (list_items R l u).
  Proof. intro H. induction l as [|[e []] l IH]; cbn [list_items]; unfold to_list; rep1. Qed.
  Lemma rep_template ps : Rep (template_text ps).
  Proof. induction ps as [|p ps IH]; cbn [template_text]; [rep1|]. unfold to_opt, to_str. destruct p; rep1. Qed.
  Lemma rep_nodes R ns : forall b, Rep (compile_nodes R ns b).
  Proof.
    induction ns as [|n ns IH]; intro b; cbn [compile_nodes]; [rep1|]. apply rep_bind; [|rep1].
    unfold compile_node, no_piece, push_result, push_piece. destruct n; cbv zeta; rep1.
  Qed.
  Lemma rep_sequence R ns k p : Rep (compile_sequence R ns k p).
  Proof. unfold compile_sequence. apply rep_bind; [apply rep_nodes|]. rep1. Qed.
  Lemma rep_add_attrs d : forall a, Rep (add_attrs a d).
  Proof. induction d as [|[n v] d IH]; intro a; cbn [add_attrs]; unfold add_attr; rep1. Qed.
  Lemma rep_each vs : Rep (to_each (fun v => to_opt to_str v) vs).
  Proof. induction vs as [|v vs IH]; cbn [to_each]; unfold to_opt, to_str in *; rep1. Qed.
  Lemma rep_attrs R l : (forall e t, Rep (e_node R e t)) -> forall a, Rep (compile_attrs R l a).
  Proof.
    intro H. induction l as [|x l IH]; intro a; cbn [compile_attrs]; [rep1|]. apply rep_bind; [|rep1].
    destruct x as [n q [e|]|e]; unfold to_dict.
    - unfold to_opt, to_str, add_attr. rep1.
    - unfold add_attr. rep1.
    - apply rep_bind; [rep1|]. intro v. apply rep_bind; [destruct v; rep1|]. intro d. apply rep_bind; [apply rep_each|]. intro. apply rep_add_attrs.
  Qed.
  Lemma rep_tag R n l ns : (forall e t, Rep (e_node R e t)) -> Rep (compile_tag R n l ns).
  Proof.
    intro H. unfold compile_tag. apply rep_bind; [unfold compile_tag_name, to_str; rep1|]. intro x. apply rep_bind; [now apply rep_attrs|].
    intro. apply rep_bind; [apply rep_sequence|]. rep1.
  Qed.
  Lemma rep_evals fuel : (forall e t, Rep (e_node (evals_n X fuel) e t)) /\ (forall f bs t src, Rep (e_call (evals_n X fuel) f bs t src)).
  Proof.
    induction fuel as [|fuel [IHn IHc]]; [split; discriminate|]. split.
    - intros e t. cbn [evals_n step e_node]. destruct e; cbn [evaluate_node]; try solve [rep1].
      + unfold evaluate_func_call, to_opt, to_func. rep1.
      + apply rep_bind; [now apply rep_def|]. rep1.
      + now apply rep_let.
      + unfold evaluate_match. apply rep_bind; [apply IHn|]. intro. now apply rep_branches.
      + apply rep_bind; [apply rep_bind; [apply rep_sequence|rep1]|]. rep1.
      + unfold evaluate_list. apply rep_bind; [now apply rep_items|]. rep1.
      + apply rep_bind; [apply rep_bind; [apply rep_template|rep1]|]. rep1.
      + apply rep_bind; [apply rep_bind; [now apply rep_tag|rep1]|]. rep1.
    - intros f. cbn [evals_n step e_call]. induction f; intros; cbn [evaluate_call]; rep1.
  Qed.
  Lemma fails_reported e t fuel s err s' : e_node (evals_n X fuel) e t s = Err err s' -> err = AlreadyReported.
  Proof. apply rep_evals. Qed.
  Lemma def_no_error eval d : forall s e s', compile_func_def eval d s <> Err e s'.
  Proof.
    intros s e s' H. destruct d as [n [ps np sp nn sn hc] b]. cbn [compile_func_def compile_func_signature] in H. unfold bind at 1, frame_id in H.
    destruct (st_stack s) as [|i k]; [discriminate|].
    assert (P : forall ps s e s', compile_params eval ps s <> Err e s').
    { clear. induction ps as [|[n q i t d] ps IH]; intros s e s' H; [discriminate|]. cbn [compile_params compile_param] in H. unfold bind, catch in H.
      destruct d as [d|].
      - destruct (eval d _ s); try discriminate; cbn [ret] in H; match type of H with match compile_params eval ps ?s with _ => _ end = _ => destruct (compile_params eval ps s) eqn:E end;
          try discriminate; eapply IH; eauto.
      - cbn [ret] in H. destruct (compile_params eval ps s) eqn:E; try discriminate; eapply IH; eauto. }
    unfold bind in H. destruct (compile_params eval _ s) eqn:E; try discriminate; [|eapply P; eauto].
    destruct (_ <? _); discriminate.
  Qed.

  Notation At := (At X). Notation Mono := (Mono X). Notation Yields := (Yields X).
  Hint Resolve mono_const mono_bind mono_node mono_call mono_in_call mono_report mono_let mono_def mono_names mono_export mono_fence mono_cnode mono_nodes : mn.
  (** ** Pattern matching *)
  Lemma mono_pattern p v : Mono (fun R => bind_pattern (e_node R) (x_captures X) p v).
  Proof. intros f f' L. apply le_bind_pattern. intros. now apply mono_node. Qed.
  Lemma mono_branches l v t : Mono (fun R => match_branches (e_node R) (x_captures X) l v t).
  Proof. intros f f' L. apply le_match_branches. intros. now apply mono_node. Qed.
  Lemma mono_in_child A (m : evals -> EM A) : Mono m -> Mono (fun R => in_child_frame (m R)).
  Proof. intro M. unfold in_child_frame. auto with mn. Qed.
  Hint Resolve mono_pattern mono_branches mono_in_child : mn.
  Lemma mono_try p v e t : Mono (fun R => let* b := bind_pattern (e_node R) (x_captures X) p v in if b then let* v := e_node R e t in ret (Some v) else ret None).
  Proof. apply mono_bind; auto with mn. intros []; auto with mn. Qed.
  Hint Resolve mono_try : mn.
  Lemma try_spec p v e t s r s' : At (fun R => in_child_frame (let* b := bind_pattern (e_node R) (x_captures X) p v in
      if b then let* v := e_node R e t in ret (Some v) else ret None)) s (Ok r s') <->
    exists i s1, hd_error (st_stack s) = Some i /\ i < length (st_heap s) /\
      (Matches X p v (entered i [] s) true s1 /\ (exists w s2, Yields e t s1 w s2 /\ r = Some w /\ s' = left_scope s2) \/
       Matches X p v (entered i [] s) false s1 /\ r = None /\ s' = left_scope s1).
  Proof.
    rewrite (at_in_child X _ (fun R => let* b := bind_pattern (e_node R) (x_captures X) p v in if b then let* v := e_node R e t in ret (Some v) else ret None)); auto with mn.
    split.
    - intros (i & s1 & H1 & L & H2 & ->).
      apply (at_bind X _ _ (fun R => bind_pattern (e_node R) (x_captures X) p v) (fun b R => if b then let* v := e_node R e t in ret (Some v) else ret None)) in H2
        as (b & s2 & H2 & H3); auto with mn; [|intros []; auto with mn]. exists i, s2. do 2 (split; [assumption|]). destruct b.
      + left. split; [exact H2|]. apply (at_bind X _ _ (fun R => e_node R e t) (fun v _ => ret (Some v))) in H3 as (w & s3 & H3 & H4); auto with mn.
        apply at_const, ret_ok in H4 as [-> ->]. exists w, s3. auto.
      + right. apply at_const, ret_ok in H3 as [-> ->]. auto.
    - intros (i & s1 & H1 & L & [(H2 & w & s2 & H3 & -> & ->)|(H2 & -> & ->)]); exists i; eexists; do 2 (split; [assumption|]); split; try reflexivity.
      + apply (at_bind X _ _ (fun R => bind_pattern (e_node R) (x_captures X) p v) (fun b R => if b then let* v := e_node R e t in ret (Some v) else ret None)); auto with mn;
          [intros []; auto with mn|]. exists true, s1. split; [exact H2|].
        apply (at_bind X _ _ (fun R => e_node R e t) (fun v _ => ret (Some v))); auto with mn. exists w, s2. split; [exact H3|now apply at_const].
      + apply (at_bind X _ _ (fun R => bind_pattern (e_node R) (x_captures X) p v) (fun b R => if b then let* v := e_node R e t in ret (Some v) else ret None)); auto with mn;
          [intros []; auto with mn|]. exists false, s1. split; [exact H2|now apply at_const].
  Qed.
  Lemma branches_spec v t l : forall s w s', At (fun R => match_branches (e_node R) (x_captures X) l v t) s (Ok w s') <-> Branches X v t l s w s'.
  Proof.
    induction l as [|[p e] l IH]; intros s w s'; cbn [match_branches].
    - rewrite at_const. split; [discriminate|]. intro H; inversion H.
    - rewrite (at_bind X _ _ (fun R => in_child_frame (let* b := bind_pattern (e_node R) (x_captures X) p v in
        if b then let* v := e_node R e t in ret (Some v) else ret None)) (fun r R => match r with Some v => ret v | None => match_branches (e_node R) (x_captures X) l v t end));
        auto with mn; [|intros []; auto with mn]. split.
      + intros (r & s1 & H1 & H2). apply try_spec in H1 as (i & s2 & Hi & L & [(H1 & u & s3 & H3 & -> & ->)|(H1 & -> & ->)]).
        * apply at_const, ret_ok in H2 as [-> ->]. eapply bc_taken; eauto.
        * apply IH in H2. eapply bc_next; eauto.
      + intro H. inversion H; subst.
        * exists (Some w), (left_scope s2). split; [|now apply at_const]. apply try_spec. exists i, s1. do 2 (split; [assumption|]). left. split; [assumption|]. eauto.
        * exists None, (left_scope s1). split; [|now apply IH]. apply try_spec. exists i, s1. do 2 (split; [assumption|]). right. auto.
  Qed.
  Lemma yields_match e l t s v s' : Yields (EMatch e l) t s v s' <-> exists u s1, Yields e TAny s u s1 /\ Branches X u t l s1 v s'.
  Proof.
    rewrite yields_at. cbn [evaluate_node]. unfold evaluate_match.
    rewrite (at_bind X _ _ (fun R => e_node R e TAny) (fun v R => match_branches (e_node R) (x_captures X) l v t)); auto with mn. split.
    - intros (u & s1 & H1 & H2). exists u, s1. split; [exact H1|]. now apply branches_spec.
    - intros (u & s1 & H1 & H2). exists u, s1. split; [exact H1|]. now apply branches_spec.
  Qed.

  (** ** Declarations *)
  Lemma names_export_spec l : forall s a s', At (fun R => export_names R l) s (Ok a s') <-> Exports X l s s'.
  Proof.
    induction l as [|[n e] l IH]; intros s a s'; rewrite (unit_ok a); cbn [export_names].
    - rewrite at_const, ret_ok. split; [intros [_ ->]; constructor|]. intro H; inversion H; auto.
    - rewrite (at_bind X _ _ (fun R => e_node R e TAny) (fun v R => M_State.export n v;;; export_names R l)); auto with mn. split.
      + intros (v & s1 & H1 & H2). apply (at_bind X _ _ (fun _ => M_State.export n v) (fun _ R => export_names R l)) in H2 as (u & s2 & H2 & H3); auto with mn.
        apply at_const, export_ok in H2 as ->. apply IH in H3. eapply exps_var; eauto.
      + intro H. inversion H; subst. exists v, s1. split; [assumption|].
        apply (at_bind X _ _ (fun _ => M_State.export n v) (fun _ R => export_names R l)); auto with mn.
        exists tt. eexists. split; [apply at_const, export_ok; reflexivity|]. now apply IH.
  Qed.
  Lemma defines_name d s f s' : Defines X d s f s' -> func_name f = let '(FuncDef n _ _) := d in n.
  Proof. intro H. inversion H; subst. reflexivity. Qed.
  Lemma export_spec e s a s' : At (fun R => compile_export R e) s (Ok a s') <-> Effects X (AExport e) s s'.
  Proof.
    rewrite (unit_ok a). destruct e as [l|l|d]; cbn [compile_export].
    - rewrite names_export_spec. split; [now constructor|]. intro H; inversion H; subst. assumption.
    - rewrite (at_bind X _ _ (fun R => evaluate_let_in R l TUnit true) (fun _ _ => ret tt)); auto with mn. split.
      + intros (v & s1 & H1 & H2). apply let_spec in H1. apply at_const, ret_ok in H2 as [_ ->]. eapply ef_export_let; eauto.
      + intro H. inversion H; subst. exists v, s'. split; [now apply let_spec|now apply at_const].
    - rewrite (at_bind X _ _ (fun R => compile_func_def (e_node R) d) (fun f _ => M_State.export (func_name f) (VFunc f);;; set_var (func_name f) (VFunc f) false)); auto with mn.
      destruct d as [n sg b]. split.
      + intros (f & s1 & H1 & H2). apply def_spec in H1. pose proof (defines_name _ _ _ _ H1) as E. cbn in E. rewrite E in H2.
        apply at_const, bind_ok in H2 as (u & s2 & H2 & H3). apply export_ok in H2 as ->. eapply ef_export_function; eauto.
      + intro H. inversion H; subst. exists f, s1. split; [now apply def_spec|].
        match goal with D : Defines _ _ _ _ _ |- _ => pose proof (defines_name _ _ _ _ D) as E end. cbn in E. rewrite E.
        apply at_const, bind_ok. exists tt. eexists. split; [now apply export_ok|assumption].
  Qed.
  Lemma to_html_ok v s h s' : to_htmlM v s = Ok h s' <-> s' = s /\ to_html v = Some h.
  Proof. unfold to_htmlM. destruct (to_html v); [rewrite ret_ok; split; [intros [-> ->]; auto|intros [-> [= ->]]; auto]|split; [discriminate|intros [_ H]; discriminate]]. Qed.
  Lemma coerce_function v w : coerce TFunction v = inl w <-> v = w /\ exists f, v = VFunc f.
  Proof.
    change (coerce TFunction v) with (coerce_base TFunction v). destruct v; cbn; split; intro H; try discriminate; try (destruct H as [_ [f H]]; discriminate).
    - inversion H; subst. split; [reflexivity|eauto].
    - destruct H as [<- _]. reflexivity.
  Qed.
  Lemma get_var_ok n s v s' : get_var n s = Ok v s' <-> s' = s /\ Names s (NSimple n) v.
  Proof.
    split.
    - intro H. assert (s' = s).
      { unfold get_var, frame_lookup, bind, frame_id, gets in H. destruct (st_stack s); [discriminate|]. destruct (frame_get _ _ _ _); [|discriminate]. now inversion H. }
      subst. split; [reflexivity|now constructor].
    - intros [-> H]. now inversion H.
  Qed.
  Lemma fence_spec src text multi s h s' : At (fun R => compile_code_fence R src text multi) s (Ok h s') <-> FenceYields X src text multi s h s'.
  Proof.
    unfold compile_code_fence.
    rewrite (at_bind X _ _ (fun _ => get_var (if multi then n_code_block else n_code)) (fun v R => let* v := coerceM v TFunction in let* f := to_func v in
      let* bs := bind_synthetic_call f true (VStr (get_verbatim_text text)) in let* v := e_call R f bs (if multi then TBlock else TInline) src in to_htmlM v)); auto 9 with mn.
    split.
    - intros (v & s1 & H1 & H2). apply at_const, get_var_ok in H1 as [-> H1].
      apply (at_bind X _ _ (fun _ => coerceM v TFunction) (fun v R => let* f := to_func v in
        let* bs := bind_synthetic_call f true (VStr (get_verbatim_text text)) in let* v := e_call R f bs (if multi then TBlock else TInline) src in to_htmlM v)) in H2
        as (w & s1 & H2 & H3); auto 9 with mn. apply at_const, coerceM_ok in H2 as [H2 ->]. apply coerce_function in H2 as [<- [f ->]].
      apply (at_bind X _ _ (fun _ => to_func (VFunc f)) (fun f R =>
        let* bs := bind_synthetic_call f true (VStr (get_verbatim_text text)) in let* v := e_call R f bs (if multi then TBlock else TInline) src in to_htmlM v)) in H3
        as (g & s1 & H3 & H4); auto 9 with mn. apply at_const in H3. cbn in H3. inversion H3; subst. clear H3.
      apply (at_bind X _ _ (fun _ => bind_synthetic_call g true (VStr (get_verbatim_text text))) (fun bs R => let* v := e_call R g bs (if multi then TBlock else TInline) src in to_htmlM v)) in H4
        as (bs & s2 & H4 & H5); auto 9 with mn. apply at_const in H4.
      apply (at_bind X _ _ (fun R => e_call R g bs (if multi then TBlock else TInline) src) (fun v _ => to_htmlM v)) in H5 as (v & s3 & H5 & H6); auto with mn.
      apply at_const, to_html_ok in H6 as [-> H6]. econstructor; eauto; destruct multi; exact H1.
    - intro H. inversion H as [f bs v h' s1 s'' H1 H2 H3 H4]; subst. exists (VFunc f), s. split; [apply at_const, get_var_ok; split; [reflexivity|destruct multi; exact H1]|].
      apply (at_bind X _ _ (fun _ => coerceM (VFunc f) TFunction) (fun v R => let* f := to_func v in
        let* bs := bind_synthetic_call f true (VStr (get_verbatim_text text)) in let* v := e_call R f bs (if multi then TBlock else TInline) src in to_htmlM v)); auto 9 with mn.
      exists (VFunc f), s. split; [now apply at_const|].
      apply (at_bind X _ _ (fun _ => to_func (VFunc f)) (fun f R =>
        let* bs := bind_synthetic_call f true (VStr (get_verbatim_text text)) in let* v := e_call R f bs (if multi then TBlock else TInline) src in to_htmlM v)); auto 9 with mn.
      exists f, s. split; [now apply at_const|].
      apply (at_bind X _ _ (fun _ => bind_synthetic_call f true (VStr (get_verbatim_text text))) (fun bs R => let* v := e_call R f bs (if multi then TBlock else TInline) src in to_htmlM v)); auto 9 with mn.
      exists bs, s1. split; [now apply at_const|].
      apply (at_bind X _ _ (fun R => e_call R f bs (if multi then TBlock else TInline) src) (fun v _ => to_htmlM v)); auto with mn.
      exists v, s'. split; [exact H3|now apply at_const, to_html_ok].
  Qed.
End Failures.
