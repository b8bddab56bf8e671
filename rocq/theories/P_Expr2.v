(** Proofs about what expressions evaluate to (C62): content. *)
From Verif Require Import Base BaseFacts M_Text M_Names M_TagInfo M_SliceRef M_Html M_Sequence M_Types M_Token M_Diag M_Ast M_Value M_State M_Matcher M_Binder M_Native M_Eval
  S_Html P_Sequence S_Scope S_Match S_Expr P_State P_Scope P_Mono P_Coerce P_Native S_Util P_Util P_Expr.

Section Content.
  Variable X : externals.
  Notation At := (At X). Notation Mono := (Mono X). Notation Yields := (Yields X).
  Hint Resolve mono_const mono_bind mono_node mono_call mono_in_call mono_report mono_let mono_def mono_names mono_export mono_fence mono_cnode mono_nodes : mn.
  Lemma mono_catch A (m : evals -> EM A) : Mono m -> Mono (fun R => catch (m R)).
  Proof. intros M f f' L. apply le_catch. now apply M. Qed.
  Hint Resolve mono_catch : mn.
  Lemma at_catch A (m : evals -> EM A) s r s' : At (fun R => catch (m R)) s (Ok r s') <->
    match r with inl a => At m s (Ok a s') | inr e => At m s (Err e s') end.
  Proof.
    split.
    - intros [f H]. unfold catch in H. destruct (m (evals_n X f) s) eqn:E; try discriminate; inversion H; subst; now exists f.
    - destruct r; intros [f H]; exists f; unfold catch; now rewrite H.
  Qed.
  Lemma piece_spec h b s o b' s' : push_piece h b s = Ok (o, b') s' <->
    s' = s /\ exists e, b_item (Piece h) b = Ret (e, b') /\ o = option_map seq_err e.
  Proof.
    unfold push_piece. rewrite bind_ok. cbn [b_item]. split.
    - intros ([e b1] & s1 & H1 & H2). apply pure_ok in H1 as [H1 ->]. apply ret_ok in H2 as [H2 ->]. cbn in H2. inversion H2; subst. split; [reflexivity|].
      exists e. split; [exact H1|]. now destruct e.
    - intros [-> (e & H & ->)]. exists (e, b'), s. split; [now apply pure_ok|]. cbn. now destruct e.
  Qed.
  Lemma result_spec (m : evals -> EM html) b s o b' s' : Mono m -> At (fun R => push_result (m R) b) s (Ok (o, b') s') <->
    (exists h e, At m s (Ok h s') /\ b_item (Piece h) b = Ret (e, b') /\ o = option_map seq_err e) \/
    (exists e, At m s (Err e s') /\ o = Some e /\ b' = b).
  Proof.
    intro M. unfold push_result.
    rewrite (at_bind X _ _ (fun R => catch (m R)) (fun r _ => match r with inl h => push_piece h b | inr e => ret (Some e, b) end)); auto with mn. split.
    - intros (r & s1 & H1 & H2). apply at_catch in H1. apply at_const in H2. destruct r as [h|e].
      + apply piece_spec in H2 as [-> (e & H2 & ->)]. left. eauto.
      + apply ret_ok in H2 as [[= -> ->] ->]. right. eauto.
    - intros [(h & e & H & B & ->)|(e & H & -> & ->)].
      + exists (inl h), s'. split; [now apply at_catch|]. apply at_const, piece_spec. eauto.
      + exists (inr e), s'. split; [now apply at_catch|]. now apply at_const.
  Qed.
  Lemma no_piece_spec (m : evals -> EM unit) b s o b' s' : Mono m -> At (fun R => no_piece (m R) b) s (Ok (o, b') s') <->
    (At m s (Ok tt s') /\ o = None /\ b' = b) \/ (exists e, At m s (Err e s') /\ o = Some e /\ b' = b).
  Proof.
    intro M. unfold no_piece.
    rewrite (at_bind X _ _ (fun R => catch (m R)) (fun r _ => ret (match r with inl _ => None | inr e => Some e end, b))); auto with mn. split.
    - intros (r & s1 & H1 & H2). apply at_catch in H1. apply at_const, ret_ok in H2 as [[= -> ->] ->]. destruct r as [[]|e]; [left|right]; eauto.
    - intros [(H & -> & ->)|(e & H & -> & ->)].
      + exists (inl tt), s'. split; [now apply at_catch|]. now apply at_const.
      + exists (inr e), s'. split; [now apply at_catch|]. now apply at_const.
  Qed.
  Lemma at_html e s h s' : At (fun R => let* v := e_node R e THtml in to_htmlM v) s (Ok h s') <-> exists v, Yields e THtml s v s' /\ to_html v = Some h.
  Proof.
    rewrite (at_bind X _ _ (fun R => e_node R e THtml) (fun v _ => to_htmlM v)); auto with mn. split.
    - intros (v & s1 & H1 & H2). apply at_const, to_html_ok in H2 as [-> H2]. exists v. auto.
    - intros (v & H1 & H2). exists v, s'. split; [exact H1|]. now apply at_const, to_html_ok.
  Qed.
  Lemma at_html_err e s err s' : At (fun R => let* v := e_node R e THtml in to_htmlM v) s (Err err s') <-> err = AlreadyReported /\ Fails X e THtml s s'.
  Proof.
    split.
    - intros [f H]. unfold bind, to_htmlM in H. destruct (e_node (evals_n X f) e THtml s) as [v s1|er s1| |] eqn:E; try discriminate.
      + destruct (to_html v); discriminate.
      + injection H as -> ->. rewrite (fails_reported _ _ _ _ _ _ _ E) in E |- *. split; [reflexivity|now exists f].
    - intros [-> [f H]]. exists f. unfold bind. now rewrite H.
  Qed.
  Lemma def_at_err d n s err s' : ~ At (fun R => let* f := compile_func_def (e_node R) d in set_var n (VFunc f) false) s (Err err s').
  Proof.
    intros [f H]. unfold bind at 1 in H. destruct (compile_func_def _ d s) as [g s1|e s1| |] eqn:E; try discriminate.
    - unfold set_var, frame_set, frame_has, with_frame, bind, frame_id, gets, modify in H. destruct (st_stack s1) as [|i l] eqn:Es; [discriminate|]. rewrite Es in H.
      destruct (nth_error (st_heap s1) i) as [fr|]; [destruct (fr_has n fr)|]; discriminate.
    - now apply def_no_error in E.
  Qed.
  Lemma at_def n sg body s a s' : At (fun R => let* f := compile_func_def (e_node R) (FuncDef n sg body) in set_var n (VFunc f) false) s (Ok a s') <->
    Effects X (AFuncDef (FuncDef n sg body)) s s'.
  Proof.
    rewrite (unit_ok a), (at_bind X _ _ (fun R => compile_func_def (e_node R) (FuncDef n sg body)) (fun f _ => set_var n (VFunc f) false)); auto with mn. split.
    - intros (f & s1 & H1 & H2). apply def_spec in H1. apply at_const in H2. econstructor; eauto.
    - intro H. inversion H; subst. exists f, s1. split; [now apply def_spec|now apply at_const].
  Qed.
  Lemma node_spec n b s o b' s' : At (fun R => compile_node R n b) s (Ok (o, b') s') <->
    (exists i e, Adds X n s i s' /\ b_item i b = Ret (e, b') /\ o = option_map seq_err e) \/
    (Effects X n s s' /\ o = None /\ b' = b) \/ (exists e, Breaks X n s e s' /\ o = Some e /\ b' = b).
  Proof.
    destruct n as [e|e|[n sg body]|src text multi|x|c| |]; cbn [compile_node].
    - rewrite no_piece_spec, export_spec; auto with mn. split.
      + intros [H|(er & [f H] & -> & ->)]; [right; now left|right; right]. exists er. split; [econstructor; eauto|auto].
      + intros [(i & er & H & _)|[H|(er & H & -> & ->)]]; [inversion H|now left|right]. inversion H; subst. exists er. split; [now exists fuel|auto].
    - rewrite (result_spec (fun R => let* v := e_node R e THtml in to_htmlM v)); auto with mn. split.
      + intros [(h & er & H & B & ->)|(er & H & -> & ->)].
        * apply at_html in H as (v & H & T). left. exists (Piece h), er. split; [econstructor; eauto|auto].
        * apply at_html_err in H as [-> H]. right; right. exists AlreadyReported. split; [now constructor|auto].
      + intros [(i & er & H & B & ->)|[(H & _)|(er & H & -> & ->)]]; [inversion H; subst|inversion H|inversion H; subst].
        * left. exists h, er. split; [apply at_html; eauto|auto].
        * right. exists AlreadyReported. split; [now apply at_html_err|auto].
    - rewrite (no_piece_spec (fun R => let* f := compile_func_def (e_node R) (FuncDef n sg body) in set_var n (VFunc f) false)), at_def; auto with mn. split.
      + intros [H|(er & H & _)]; [right; now left|]. now apply def_at_err in H.
      + intros [(i & er & H & _)|[H|(er & H & _)]]; [inversion H|now left|inversion H].
    - rewrite (result_spec (fun R => compile_code_fence R src text multi)); auto with mn. split.
      + intros [(h & er & H & B & ->)|(er & [f H] & -> & ->)].
        * apply fence_spec in H. left. exists (Piece h), er. split; [now constructor|auto].
        * right; right. exists er. split; [econstructor; eauto|auto].
      + intros [(i & er & H & B & ->)|[(H & _)|(er & H & -> & ->)]]; [inversion H; subst|inversion H|inversion H; subst].
        * left. exists h, er. split; [now apply fence_spec|auto].
        * right. exists er. split; [now exists fuel|auto].
    - rewrite at_const, piece_spec. split.
      + intros [-> (e & H & ->)]. left. exists (Piece (html_text x)), e. split; [constructor|auto].
      + intros [(i & er & H & B & ->)|[(H & _)|(er & H & _)]]; inversion H; subst. eauto.
    - rewrite at_const, piece_spec. split.
      + intros [-> (e & H & ->)]. left. exists (Piece (html_text [c])), e. split; [constructor|auto].
      + intros [(i & er & H & B & ->)|[(H & _)|(er & H & _)]]; inversion H; subst. eauto.
    - rewrite at_const, piece_spec. split.
      + intros [-> (e & H & ->)]. left. exists (Piece HWhitespace), e. split; [constructor|auto].
      + intros [(i & er & H & B & ->)|[(H & _)|(er & H & _)]]; inversion H; subst. eauto.
    - rewrite at_const. cbv zeta. rewrite ret_ok. split.
      + intros [[= -> ->] ->]. left. exists ParagraphBreak, (fst (b_newline b)). split; [constructor|]. split; [cbn; now destruct (b_newline b)|]. now destruct (fst (b_newline b)).
      + intros [(i & er & H & B & ->)|[(H & _)|(er & H & _)]]; inversion H; subst. cbn in B. inversion B as [B']. rewrite B'. cbn. now destruct er.
  Qed.

  (** *** Sequences *)
  Lemma items_snoc is : forall i b es b1 e b2, b_items is b = Ret (es, b1) -> b_item i b1 = Ret (e, b2) ->
    b_items (is ++ [i]) b = Ret (es ++ match e with Some e => [e] | None => [] end, b2).
  Proof.
    induction is as [|j is IH]; intros i b es b1 e b2 H H'; cbn [b_items app] in *.
    - inversion H; subst. rewrite H'. cbn. now destruct e.
    - destruct (b_item j b) as [[ej bj]| |]; try discriminate. cbn [obind] in *. destruct (b_items is bj) as [[es' b']| |] eqn:E; try discriminate. cbn [obind] in H.
      inversion H; subst. rewrite (IH i bj es' b1 e b2 E H'). cbn [obind]. now destruct ej.
  Qed.
  Section Kind.
    Variable k : content_kind.
    Variable parent : option str.
    Hypothesis Good : good_kind k.
    Lemma total_items is : exists es b, b_items is (b_new k parent) = Ret (es, b).
    Proof. destruct (b_items_total is (b_new k parent)) as [[es b] H]; [cbn; auto|eauto]. Qed.
    Lemma total_next is es b i : b_items is (b_new k parent) = Ret (es, b) -> exists e b', b_item i b = Ret (e, b').
    Proof.
      intro H. destruct (total_items (is ++ [i])) as (es' & b' & H').
      assert (G : forall b0 es, b_items is b0 = Ret (es, b) -> b_items (is ++ [i]) b0 = Ret (es', b') -> exists e b', b_item i b = Ret (e, b')).
      { clear. revert es'. induction is as [|j is IH]; intros es' b0 es H H'; cbn [b_items app] in *.
        - inversion H; subst. destruct (b_item i b) as [[e b1]| |]; try discriminate. eauto.
        - destruct (b_item j b0) as [[ej bj]| |]; try discriminate. cbn [obind] in *. destruct (b_items is bj) as [[es1 b1]| |] eqn:E; try discriminate.
          cbn [obind] in H. inversion H; subst. destruct (b_items (is ++ [i]) bj) as [[es2 b2]| |] eqn:E'; try discriminate. cbn [obind] in H'. inversion H'; subst.
          eapply IH; eauto. }
      eapply G; eauto.
    Qed.
    Lemma told_one is es b i e b' s : b_items is (b_new k parent) = Ret (es, b) -> b_item i b = Ret (e, b') ->
      told k parent is i s = match option_map seq_err e with Some e => reported e s | None => s end.
    Proof.
      intros H H'. unfold told, refusals. rewrite H, (items_snoc _ _ _ _ _ _ _ H H'). rewrite map_app, skipn_app, skipn_all, Nat.sub_diag. cbn [app skipn].
      now destruct e.
    Qed.
    Lemma nodes_spec ns : forall before es b s b' s', b_items before (b_new k parent) = Ret (es, b) ->
      At (fun R => compile_nodes R ns b) s (Ok b' s') <->
      exists items es', Contents X k parent ns before s items s' /\ b_items items (b_new k parent) = Ret (es', b').
    Proof.
      induction ns as [|n ns IH]; intros before es b s b' s' Hb; cbn [compile_nodes].
      - rewrite at_const, ret_ok. split.
        + intros [-> ->]. exists before, es. split; [constructor|exact Hb].
        + intros (items & es' & H & H'). inversion H; subst. rewrite Hb in H'. inversion H'; auto.
      - rewrite (at_bind X _ _ (fun R => compile_node R n b) (fun r R => match fst r with Some e => report e | None => ret tt end;;; compile_nodes R ns (snd r))); auto 8 with mn.
        assert (Rp : forall o s1 u s2, match o with Some e => report e | None => ret tt end s1 = Ok u s2 <-> s2 = match o with Some e => reported e s1 | None => s1 end).
        { intros [e|] s1 [] s2; cbn; split; intro H; try (now inversion H); subst; reflexivity. }
        split.
        + intros ([o b1] & s1 & H1 & H2). cbn [fst snd] in H2.
          apply (at_bind X _ _ (fun _ => match o with Some e => report e | None => ret tt end) (fun _ R => compile_nodes R ns b1)) in H2 as (u & s2 & H2 & H3); auto with mn.
          apply at_const, Rp in H2 as ->. apply node_spec in H1 as [(i & e & HA & HB & ->)|[(HE & -> & ->)|(e & HE & -> & ->)]].
          * rewrite <- (told_one before es b i e b1 s1 Hb HB) in H3. apply (IH (before ++ [i]) _ b1 _ b' s' (items_snoc _ _ _ _ _ _ _ Hb HB)) in H3 as (items & es' & HC & HF).
            exists items, es'. split; [eapply ct_adds; eauto|exact HF].
          * apply (IH before es b _ b' s' Hb) in H3 as (items & es' & HC & HF). exists items, es'. split; [eapply ct_effects; eauto|exact HF].
          * apply (IH before es b _ b' s' Hb) in H3 as (items & es' & HC & HF). exists items, es'. split; [eapply ct_breaks; eauto|exact HF].
        + intros (items & es' & H & HF).
          assert (G : forall o b1 s1, At (fun R => compile_node R n b) s (Ok (o, b1) s1) ->
            At (fun R => compile_nodes R ns b1) (match o with Some e => reported e s1 | None => s1 end) (Ok b' s') ->
            exists a s1, At (fun R => compile_node R n b) s (Ok a s1) /\
              At (fun R => match fst a with Some e => report e | None => ret tt end;;; compile_nodes R ns (snd a)) s1 (Ok b' s')).
          { intros o b1 s1 HN HR. exists (o, b1), s1. split; [exact HN|].
            apply (at_bind X _ _ (fun _ => match o with Some e => report e | None => ret tt end) (fun _ R => compile_nodes R ns b1)); auto with mn.
            exists tt. eexists. split; [apply at_const, Rp; reflexivity|exact HR]. }
          inversion H; subst.
          * destruct (total_next before es b i Hb) as (e & b1 & HB). eapply (G (option_map seq_err e) b1 s1).
            { apply node_spec. left. eauto. }
            rewrite <- (told_one before es b i e b1 s1 Hb HB). apply (IH (before ++ [i]) _ b1 _ b' s' (items_snoc _ _ _ _ _ _ _ Hb HB)). eauto.
          * eapply (G None b s1); [apply node_spec; right; left; auto|]. apply (IH before es b _ b' s' Hb). eauto.
          * eapply (G (Some e) b s1); [apply node_spec; right; right; eauto|]. apply (IH before es b _ b' s' Hb). eauto.
    Qed.
    Lemma sequence_spec ns s h s' : At (fun R => compile_sequence R ns k parent) s (Ok h s') <-> Makes X k parent ns s h s'.
    Proof.
      unfold compile_sequence.
      rewrite (at_bind X _ _ (fun R => compile_nodes R ns (b_new k parent)) (fun b _ => match b_into_html b with inl h => ret h | inr e => report (seq_err e);;; ret HEmpty end)); auto with mn.
      split.
      - intros (b & s1 & H1 & H2). apply (nodes_spec ns [] [] (b_new k parent) _ _ _ eq_refl) in H1 as (items & es & HC & HF). apply at_const in H2.
        destruct (b_into_html b) as [h'|e] eqn:E.
        + apply ret_ok in H2 as [-> ->]. apply makes with items es; [exact HC| |]; unfold compile_items, refusals; rewrite HF; [cbn; now rewrite E|reflexivity].
        + cbn in H2. inversion H2; subst. apply makes_not with items es; [exact HC| |]; unfold compile_items, refusals; rewrite HF; [cbn; now rewrite E|reflexivity].
      - intro H. inversion H; subst.
        + match goal with I : compile_items _ _ _ = _, R : refusals _ _ _ = _ |- _ => unfold compile_items in I; unfold refusals in R; destruct (total_items items) as (es0 & b & F);
            rewrite F in I, R; cbn in I end. exists b, s'.
          split; [apply (nodes_spec ns [] [] (b_new k parent) _ _ _ eq_refl); eauto|]. apply at_const.
          destruct (b_into_html b) as [h'|e]; [inversion H1; subst; reflexivity|]. exfalso. inversion H1; subst. apply (f_equal (@length _)) in H2. rewrite !map_length, app_length in H2. cbn in H2. lia.
        + match goal with I : compile_items _ _ _ = _, R : refusals _ _ _ = _ |- _ => unfold compile_items in I; unfold refusals in R; destruct (total_items items) as (es0 & b & F);
            rewrite F in I, R; cbn in I end. exists b, s'0.
          split; [apply (nodes_spec ns [] [] (b_new k parent) _ _ _ eq_refl); eauto|]. apply at_const.
          destruct (b_into_html b) as [h'|e0]; [|inversion H1 as [[HE HH]]; apply app_inj_tail in HE as [-> ->]; reflexivity].
          exfalso. inversion H1; subst. apply (f_equal (@length _)) in H2. rewrite !map_length, app_length in H2. cbn in H2. lia.
    Qed.
  End Kind.

  (** ** Documents *)
  Lemma report_all_ok errs : forall s a s', report_all errs s = Ok a s' <-> s' = fold_left (fun s e => reported e s) errs s.
  Proof.
    induction errs as [|e errs IH]; intros s a s'; cbn [report_all fold_left].
    - rewrite (unit_ok a), ret_ok. tauto.
    - rewrite bind_ok. split.
      + intros (u & s1 & H1 & H2). apply IH in H2 as ->. unfold report, modify in H1. inversion H1; subst. reflexivity.
      + intros ->. exists tt, (reported e s). split; [reflexivity|now apply IH].
  Qed.
  Lemma fold_reported errs : forall s, st_stack (fold_left (fun s e => reported e s) errs s) = st_stack s /\ st_exports (fold_left (fun s e => reported e s) errs s) = st_exports s.
  Proof. induction errs as [|e errs IH]; intro s; [auto|]. cbn [fold_left]. destruct (IH (reported e s)) as [-> ->]. auto. Qed.
  Lemma document_spec path text s h ex s' : (exists fuel, compile X fuel path text s = Ok (h, ex) s') <-> DocumentOf X path text s h ex s'.
  Proof.
    change (exists fuel, compile X fuel path text s = Ok (h, ex) s') with
      (At (fun R => let* r := pure FParser (parse_source X path text) in let '(root, errs) := r in
         report_all errs;;; with_compiler (compile_sequence R root (RequireBlock n_p) None)) s (Ok (h, ex) s')).
    assert (Gd : good_kind (RequireBlock n_p)) by (unfold good_kind; cbn; auto).
    split.
    - intros [f H]. apply bind_ok in H as ([root errs] & s1 & H1 & H2). apply pure_ok in H1 as [H1 ->]. apply bind_ok in H2 as (u & s2 & H2 & H3).
      apply report_all_ok in H2. unfold with_compiler in H3. change (set_stack _ _) with (begun s2) in H3 at 1.
      destruct (compile_sequence _ _ _ _ (begun s2)) as [h' s3| | |] eqn:E; try discriminate. inversion H3; subst.
      destruct (fold_reported errs s) as [E1 E2]. rewrite E1, E2. econstructor; [exact H1|]. apply sequence_spec; [exact Gd|]. now exists f.
    - intro H. inversion H as [root errs h' s1 P Mk]; subst. apply sequence_spec in Mk as [f Mk]; [|exact Gd]. exists f. cbn beta.
      apply bind_ok. exists (root, errs), s. split; [now apply pure_ok|]. apply bind_ok. exists tt. eexists. split; [apply report_all_ok; reflexivity|].
      unfold with_compiler. change (set_stack [_] _) with (begun (fold_left (fun s e => reported e s) errs s)) at 1. rewrite Mk.
      destruct (fold_reported errs s) as [-> ->]. reflexivity.
  Qed.
End Content.
