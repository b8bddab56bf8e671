(** Proofs about sound states: the evaluator (C47, C57). *)
From Verif Require Import Base BaseFacts M_Text M_Names M_TagInfo M_SliceRef M_Html M_Sequence S_Html P_Html P_Sequence M_Path M_Types M_Diag M_Ast M_Value M_State M_Matcher M_Binder M_Native M_Eval
  S_Util P_Util S_Types P_Types P_Coerce S_Scope P_State P_Scope S_Call P_Call P_Match S_Safe P_SafeBase P_SafeMonad P_SafeBind P_SafeMatch P_SafeHtml P_SafeNative.

(** ** The content of tags *)
Notation GB m := (BInv (fun _ => GoodHtml m)).
Definition Content (m : mode) (k : content_kind) (h : html) : Prop := GoodHtml m h /\ (k = RequireEmpty -> h = HEmpty).
(** a builder of content of the kind [k] *)
Definition GK (m : mode) (k : content_kind) (b : builder) : Prop := GB m b /\ b_kind b = k.
Lemma wrap_plain : forall k, good_kind k -> can_wrap k = true -> is_plain (wrap_with k) = true.
Proof. kinds; first [intros _; vm_compute; reflexivity | vm_compute; discriminate]. Qed.
Lemma void_content n : Void n -> content_kind_for n = RequireEmpty.
Proof.
  intro V. assert (H : Forall (fun n => content_kind_for n = RequireEmpty) void_elements) by (repeat (constructor; [vm_compute; reflexivity|]); constructor).
  rewrite Forall_forall in H. now apply H.
Qed.
Section Content.
  Variable m : mode.
  Lemma gb_result (k : content_kind) ch : good_kind k -> Forall (GoodHtml m) ch -> head_not_white ch ->
    (k = RequireEmpty -> from_iter (pop_white ch) = HEmpty) -> Content m k (from_iter (pop_white ch)).
  Proof. intros _ F _ E. split; [|exact E]. apply gh_from_iter. now apply pop_white_incl. Qed.
  Lemma gb_allow n h : good_kind (AllowBlock n) -> Content m (content_kind_for n) h -> Content m (AllowBlock n) h.
  Proof. intros _ [A _]. split; [exact A|discriminate]. Qed.
  Lemma gb_empty k : good_kind k -> Content m k HEmpty.
  Proof. intros _. split; [apply gh_empty|auto]. Qed.
  Lemma gb_wrap k h : good_kind k -> can_wrap k = true -> Content m (content_kind_for (wrap_with k)) h -> h <> HEmpty -> GoodHtml m (in_tag h (wrap_with k)).
  Proof.
    intros G W [A E] _. apply gh_tag; [constructor| |exact A]. intros _. split; [now apply plain_ascii, wrap_plain|]. split; [constructor|].
    intro V. apply E. now apply void_content.
  Qed.
  Lemma gb_br : GoodHtml m (html_tag n_br HEmpty).
  Proof. apply gh_tag; [constructor| |apply gh_empty]. intros _. split; [now apply plain_ascii|]. split; [constructor|auto]. Qed.
  Lemma gb_kinds : forall b, GB m b -> BKinds b.
  Proof.
    intro b. induction b as [p k ch|p k ch c IH] using builder_ind'; intros (H1 & H2 & H3 & H4); cbn; [auto|].
    destruct H4 as (_ & H5 & H6). auto.
  Qed.
  Lemma gb_push kd fuel h b e b' : GoodHtml m h -> GK m kd b -> b_push fuel h b = Ret (e, b') -> GK m kd b'.
  Proof.
    intros G [H <-] E. apply (push_ok (fun _ => GoodHtml m) (Content m) (GoodHtml m)) in E; auto.
    - apply gb_result.
    - apply gb_allow.
    - apply gb_empty.
    - apply gb_wrap.
  Qed.
  Lemma gb_newline kd b e b' : GK m kd b -> b_newline b = (e, b') -> GK m kd b'.
  Proof.
    intros [H <-] E. apply (newline_ok (fun _ => GoodHtml m) (Content m)) in E; auto.
    - apply gb_result.
    - apply gb_allow.
    - apply gb_empty.
    - apply gb_wrap.
    - apply gb_br.
  Qed.
  Lemma gb_into kd b h : GK m kd b -> b_into_html b = inl h -> Content m kd h.
  Proof.
    intros [H <-] E. apply (into_html_ok (fun _ => GoodHtml m) (Content m)) in E; auto.
    - apply gb_result.
    - apply gb_allow.
    - apply gb_empty.
    - apply gb_wrap.
  Qed.
  Lemma gb_new k p : good_kind k -> GK m k (b_new k p).
  Proof. intro G. split; [now apply new_ok|reflexivity]. Qed.
End Content.

(** ** Parts of well-behaved programs *)
Section Parts.
  Variable m : mode.
  Lemma part_call src f l c : GoodExpr m (EFuncCall src f l c) -> (~ Loose m -> is_coalescing f = false) /\ Forall (GoodArg m) l /\ GoodExpr m c.
  Proof.
    unfold GoodExpr. destruct m as [| |g T] eqn:Em; cbn; rewrite ?andb_true_iff.
    - intros _. split; [intro K; now elim K|]. split; [|exact I]. apply Forall_forall. intros [a b e] _. split; [exact I|discriminate].
    - intros [A B]. split; [intro K; now elim K|]. split; [|exact B]. rewrite forallb_forall in A. apply Forall_forall. intros [a b e] Ha. specialize (A _ Ha). cbn in A.
      apply andb_true_iff in A as [A1 A2]. split; [exact A2|]. intros En _. rewrite En in A1. now apply plain_ascii.
    - intros [[A B] [[C D] E]]. split; [intros _; now apply negb_true_iff|]. split; [|auto].
      rewrite forallb_forall in A, D. apply Forall_forall. intros [a b e] Ha. specialize (A _ Ha). specialize (D _ Ha). cbn in A, D. rewrite orb_true_r in A, D. split; [now split|discriminate].
  Qed.
  Lemma part_let imp vars child : GoodExpr m (ELetIn (LetIn imp vars child)) ->
    Forall (fun ne => GoodExpr m (snd ne) /\ match m with Strict _ T => disciplined_let T imp (fst ne) (snd ne) = true | _ => True end) vars /\ GoodExpr m child.
  Proof.
    unfold GoodExpr. destruct m as [| |g T] eqn:Em; cbn; rewrite ?andb_true_iff.
    - intros _. split; [|exact I]. apply Forall_forall. auto.
    - intros [A B]. split; [|exact B]. rewrite forallb_forall in A. apply Forall_forall. intros ne H. split; [exact (A _ H)|exact I].
    - intros [[A B] [C D]]. split; [|auto]. rewrite forallb_forall in A, C. apply Forall_forall. intros ne H. specialize (A _ H). specialize (C _ H).
      apply andb_true_iff in C as [C1 C2]. split; [split; [exact A|exact C2]|exact C1].
  Qed.
  Lemma part_match e bs : GoodExpr m (EMatch e bs) -> GoodExpr m e /\ Forall (GoodBranch m) bs.
  Proof.
    unfold GoodBranch, GoodExpr, GoodPat. destruct m as [| |g T] eqn:Em; cbn; rewrite ?andb_true_iff.
    - intros _. split; [exact I|]. apply Forall_forall. auto.
    - intros [A B]. split; [exact A|]. rewrite forallb_forall in B. apply Forall_forall. intros b H. specialize (B _ H). now apply andb_true_iff in B.
    - intros [[A B] [C D]]. split; [auto|]. rewrite forallb_forall in B, D. apply Forall_forall. intros b H. specialize (B _ H). specialize (D _ H).
      apply andb_true_iff in B as [B1 B2], D as [D1 D2]. auto.
  Qed.
  Lemma nodes_of ns : match m with Strict g T => forallb (every_node (well_formed g)) ns = true /\ forallb (every_node (discipline T)) ns = true | Plain => forallb (every_node named) ns = true | Lax => True end ->
    Forall (GoodNode m) ns.
  Proof.
    unfold GoodNode. destruct m as [| |g T] eqn:Em.
    - intros _. apply Forall_forall. auto.
    - rewrite forallb_forall, Forall_forall. auto.
    - rewrite !forallb_forall, Forall_forall. intros [A B] x H. auto.
  Qed.
  Lemma part_group ns : GoodExpr m (EGroup ns) -> Forall (GoodNode m) ns.
  Proof. intro H. apply nodes_of. unfold GoodExpr in H. destruct m as [| |g T]; [exact I|exact H|]. exact H. Qed.
  Lemma part_list l : GoodExpr m (EList l) -> Forall (fun x => GoodExpr m (fst x)) l.
  Proof.
    unfold GoodExpr. destruct m as [| |g T] eqn:Em; cbn.
    - intros _. apply Forall_forall. auto.
    - rewrite forallb_forall, Forall_forall. auto.
    - rewrite !forallb_forall, Forall_forall. intros [A B] x H. auto.
  Qed.
  Definition GoodAttr (a : tag_attr) : Prop :=
    match a with TAttr x _ v => (m = Plain -> PlainName x) /\ (forall e, v = Some e -> GoodExpr m e) | TSpread e => GoodExpr m e end.
  Definition GoodTagName (n : tag_name) : Prop := match n with TNLit n => m = Plain -> PlainName n | TNName _ => True end.
  Lemma part_tag n l ns : GoodExpr m (ETag n l ns) -> GoodTagName n /\ Forall GoodAttr l /\ Forall (GoodNode m) ns.
  Proof.
    intro H. split; [|split; [|apply nodes_of]]; unfold GoodTagName, GoodAttr, GoodExpr in *; destruct m as [| |g T] eqn:Em; cbn in H; rewrite ?andb_true_iff in H.
    - destruct n; [discriminate|exact I].
    - destruct H as [[H _] _]. destruct n; [intros _; now apply plain_ascii|exact I].
    - destruct n; [discriminate|exact I].
    - apply Forall_forall. intros [a b v|e] _; [split; [discriminate|auto]|auto].
    - destruct H as [[_ A] _]. rewrite forallb_forall in A. apply Forall_forall. intros x Hx. specialize (A _ Hx). destruct x as [a b v|e]; [|exact A].
      cbn in A. apply andb_true_iff in A as [A1 A2]. split; [intros _; now apply plain_ascii|]. intros e ->. exact A2.
    - destruct H as [[[_ A] _] [[_ B] _]]. rewrite forallb_forall in A, B. apply Forall_forall. intros x Hx. specialize (A _ Hx). specialize (B _ Hx). destruct x as [a b v|e]; [|auto].
      split; [discriminate|]. intros e ->. auto.
    - exact I.
    - tauto.
    - tauto.
  Qed.
  Lemma distinct_NoDup l : distinct l = true -> NoDup l.
  Proof.
    induction l as [|x l IH]; cbn; [constructor|]. rewrite andb_true_iff, negb_true_iff. intros [A B]. constructor; auto.
    intro H. apply mem_In in H. congruence.
  Qed.
  Lemma part_def d : match m with Strict g T => every_def (well_formed g) d = true /\ every_def (discipline T) d = true | Plain => every_def named d = true | Lax => True end -> GoodDef m d.
  Proof.
    destruct d as [n [ps np sp nn sn hc] body]. unfold GoodDef, GoodSg, GoodDecl, GoodExpr. destruct m as [| |g T] eqn:Em; cbn [every_def every_sig well_formed discipline named c_sig].
    - intros _. split; [|exact I]. split; [|intro K; now elim K]. apply Forall_forall. intros [? ? ? ? ?] _. auto.
    - rewrite !andb_true_iff. intros [[_ A2] A3]. split; [|exact A3]. rewrite forallb_forall in A2. split; [|intro K; now elim K].
      apply Forall_forall. intros p Hp. specialize (A2 _ Hp). destruct p as [x q i t d]. split; [|exact I]. intros e ->. exact A2.
    - rewrite !andb_true_iff. intros [[[A1 A2] A3] [[B1 B2] B3]]. split; [|auto]. rewrite forallb_forall in A2, B2.
      unfold disciplined_sig in B1. apply andb_true_iff in B1 as [B0 B1]. rewrite forallb_forall in B1. split.
      + apply Forall_forall. intros p Hp. specialize (A2 _ Hp). specialize (B2 _ Hp). specialize (B1 _ Hp). destruct p as [x q i t d]. split; [|exact B1].
        intros e ->. auto.
      + intros _. unfold wf_sig in A1. apply andb_true_iff in A1 as [A0 A1]. apply distinct_NoDup in B0.
        apply Nat.leb_le in A0. apply negb_true_iff in A1. unfold EnoughSig. repeat split; auto.
        intro H. apply mem_In in H. congruence.
  Qed.
  Lemma part_fn d : GoodExpr m (EFuncDef d) -> GoodDef m d.
  Proof. intro H. apply part_def. unfold GoodExpr in H. destruct m; exact H. Qed.
  Lemma part_node_expr e : GoodNode m (AExpr e) -> GoodExpr m e.
  Proof. unfold GoodNode, GoodExpr. destruct m; auto. Qed.
  Lemma part_node_def n s b : GoodNode m (AFuncDef (FuncDef n s b)) -> GoodName m n /\ GoodDef m (FuncDef n s b).
  Proof.
    intro H. split; [|apply part_def]; unfold GoodNode, GoodName in *; destruct m as [| |g T]; auto.
    - destruct H as [_ H]. apply andb_true_iff in H as [H _]. exact H.
    - destruct H as [A B]. apply andb_true_iff in A as [_ A], B as [_ B]. split; [exact A|exact B].
  Qed.
  Definition GoodExport (e : M_Ast.export) : Prop :=
    match e with
    | ExNames vars => Forall (fun ne => GoodExportName m (fst ne) /\ GoodExpr m (snd ne)) vars
    | ExLetIn l => match l with LetIn _ vars _ => Forall (fun ne => GoodExportName m (fst ne)) vars end /\ GoodExpr m (ELetIn l)
    | ExFuncDef d => match d with FuncDef n _ _ => GoodExportName m n end /\ GoodDef m d
    end.
  Lemma part_export e : GoodNode m (AExport e) -> GoodExport e.
  Proof.
    destruct e as [vars|l|d]; unfold GoodExport, GoodExportName.
    - unfold GoodNode, GoodName, GoodExpr. destruct m as [| |g T]; cbn.
      + intros _. apply Forall_forall. intros. split; [split; [exact I|discriminate]|exact I].
      + intro A. rewrite forallb_forall in A. apply Forall_forall. intros x Hx. specialize (A _ Hx). apply andb_true_iff in A as [A1 A2]. split; [|exact A2]. split; [exact I|].
        intros _. now apply plain_ascii.
      + intros [A B]. rewrite forallb_forall in A, B. apply Forall_forall. intros x Hx. specialize (A _ Hx). specialize (B _ Hx). cbn in A, B.
        rewrite ?andb_true_r in A, B. apply andb_true_iff in B as [B1 B2]. rewrite andb_true_r in B1. split; [split; [exact B1|discriminate]|split; [exact A|exact B2]].
    - intro H. split.
      + destruct l as [i vars c]. unfold GoodNode, GoodName in *. destruct m as [| |g T]; cbn in H.
        * apply Forall_forall. intros. split; [exact I|discriminate].
        * apply andb_true_iff in H as [H _]. rewrite forallb_forall in H. apply Forall_forall. intros x Hx. split; [exact I|]. intros _. apply plain_ascii. exact (H _ Hx).
        * destruct H as [_ H]. rewrite !andb_true_iff in H. destruct H as [H _]. rewrite forallb_forall in H. apply Forall_forall. intros x Hx. specialize (H _ Hx).
          rewrite andb_true_r in H. split; [exact H|discriminate].
      + unfold GoodNode, GoodExpr in *. destruct m as [| |g T]; auto; [apply andb_true_iff in H as [_ H]; exact H|].
        destruct H as [A B]. apply andb_true_iff in A as [_ A], B as [_ B]. split; [exact A|exact B].
    - destruct d as [n s b]. intro H. split; [|apply part_def]; unfold GoodNode, GoodName in *; destruct m as [| |g T]; cbn [every_node every_export c_name c_written named well_formed discipline] in H; auto.
      + split; [exact I|discriminate].
      + split; [exact I|]. intros _. apply andb_true_iff in H as [H _]. now apply plain_ascii.
      + destruct H as [_ H]. apply andb_true_iff in H as [H _]. rewrite andb_true_r in H. split; [exact H|discriminate].
      + apply andb_true_iff in H as [_ H]. exact H.
      + destruct H as [A B]. apply andb_true_iff in A as [_ A], B as [_ B]. now split.
  Qed.
End Parts.

(** ** Native functions as values *)
Lemma defaults_good m n f : Forall (Good m n) (defaults (native_sig f)).
Proof. destruct f; cbn; repeat constructor; first [apply good_unit | apply good_bool | apply good_int]. Qed.
Lemma good_native m n f x : Good m n (VFunc (FNative f x (native_sig f))).
Proof. apply good_func. split; [reflexivity|apply defaults_good]. Qed.
Lemma typed_if m t v c : Typed m (t_option_if t c) v -> Typed m (TOptional t) v.
Proof.
  intros H K. specialize (H K). destruct c; cbn in H; [|now apply HT_option]. unfold t_option in H. destruct (unit_is_assignable t); [now apply HT_option|exact H].
Qed.
Lemma like_literal e v t : literal e = Some v -> check_value t v = true -> forall w, (w = v \/ exists s s', v = VStr s /\ w = VStr s') -> HasType t w.
Proof.
  intros _ H w [-> | (s & s' & -> & ->)]; [now apply check_value_spec|]. apply check_value_spec. revert H. induction t; cbn; auto.
Qed.

Section Eval.
  Variable m : mode.
  Variable X : externals.
  Notation Safe := (Safe m X).
  Hypothesis cover : Covers m.
  Hypothesis groups_are : forall g T, m = Strict g T -> GroupsAre X g.
  (** the source files are well-behaved programs *)
  Definition GoodSources : Prop :=
    forall path text root errs, x_read X path = Some text -> parse_source X path text = Ret (root, errs) -> Forall (GoodNode m) root.
  Hypothesis sources : GoodSources.

  Lemma safe_native_attr n v x : Good m n v -> Safe n (fun k f => Good m k (VFunc f)) (evaluate_native_attr v x).
  Proof.
    intro G. unfold evaluate_native_attr. destruct (ngetm (native_attr v) x) as [[f c]|]; [|apply safe_fail]. cbv zeta.
    destruct c; [apply (safe_bind_content m X)|apply (safe_bind_positional m X)]; auto; apply good_native.
  Qed.
  Lemma safe_list_get n vs i : Forall (Good m n) vs -> Safe n (fun k r => forall v, r = Some v -> Good m k v) (pure FIndex (list_get (sr_from vs) i)).
  Proof.
    intro G. destruct (list_get_spec (sr_from vs) vs i (sr_from_view vs)) as (E1 & _ & E3 & _). apply safe_pure; [intro E; now elim E3|]. intros r k E L v ->.
    apply E1, in_element in E. rewrite Forall_forall in G. apply (good_mono m n); auto.
  Qed.
  Lemma safe_name x : forall n t, Safe n (fun k v => Good m k v /\ HasType t v) (evaluate_name x t).
  Proof.
    induction x as [x|x IH c a|x IH c i]; intros n t; cbn [evaluate_name]; apply safe_or_report;
      apply (safe_bind m X _ _ n (Good m)); try (intros k v L G; now apply safe_coerce).
    - apply safe_get_var.
    - eapply safe_bind; [apply IH|]. intros k v L [G _]. cbv zeta. destruct (is_unit v && c); [apply safe_ret; intros; apply good_unit|].
      assert (N : Safe k (Good m) (let* f := evaluate_native_attr v a in ret (VFunc f))).
      { eapply safe_bind; [now apply safe_native_attr|]. intros j f Lj Gf. apply safe_ret. intros. now apply (good_mono m j). }
      destruct v as [b|z|s|vs|vs|h|g|r]; try exact N.
      + destruct (ngetm vs a) eqn:E; [|exact N]. apply safe_ret. intros j Lj. apply (good_mono m k); [exact Lj|]. apply good_dict in G as [G _]. eapply map_get; eassumption.
      + destruct h; try exact N. destruct (str_eqb a n_tag_name); [apply safe_ret; intros; apply good_str|exact N].
    - eapply safe_bind; [apply IH|]. intros k v L [G T].
      apply (safe_bind m X _ _ k (fun k r => forall vs, r = Some vs -> Forall (Good m k) vs)).
      + eapply (safe_weaken m X _ k); [apply (safe_to_opt m X _ k v (TList TAny) to_list (fun k vs => Forall (Good m k) vs))|lia|].
        * apply (typed_if m _ v c). intros _. exact T.
        * intro Ty. eapply (safe_weaken m X _ k); [now apply (safe_to_list m X k v TAny)|lia|]. now intros j a Lj [Ha _].
        * cbv beta. intros j r Lj Hr vs E. destruct (Hr vs E) as (k' & L' & G'). now apply (goods_mono m k').
      + intros j [vs|] Lj Hv; [|apply safe_ret; intros; apply good_unit]. specialize (Hv vs eq_refl).
        eapply safe_bind; [now apply safe_list_get|]. intros i0 [w|] Li Hw; [|apply safe_fail]. specialize (Hw w eq_refl). apply safe_ret. intros. now apply (good_mono m i0).
  Qed.

  Section Step.
    Variable R : evals.
    Definition EvalSafe : Prop := forall n e t, GoodExpr m e ->
      Safe n (fun k v => (Good m k v /\ Fits m t v) /\
        (t = TAny -> forall w, literal e = Some w -> forall t', check_value t' w = true -> HasType t' v)) (e_node R e t).
    Definition CallSafe : Prop := forall n f bs t src, Good m n (VFunc f) -> Bindings m (func_sig f) n bs ->
      Safe n (fun k v => Good m k v /\ Fits m t v) (e_call R f bs t src).
    Hypothesis eval_full : EvalSafe.
    Hypothesis call_safe : CallSafe.

    Lemma eval_safe : forall n e t, GoodExpr m e -> Safe n (fun k v => Good m k v /\ Fits m t v) (e_node R e t).
    Proof. intros n e t G. eapply (safe_weaken m X _ n); [now apply eval_full|lia|]. cbv beta. tauto. Qed.

    Lemma safe_func_call n src f l c t : GoodExpr m (EFuncCall src f l c) -> Safe n (fun k v => Good m k v /\ Fits m t v) (evaluate_func_call R src f l c t).
    Proof.
      intro G. apply part_call in G as (Hc & Gl & Gc). unfold evaluate_func_call. eapply safe_bind; [apply safe_name|]. intros k v L [G T].
      apply (safe_bind m X _ _ k (fun k r => (r = None -> Loose m) /\ forall g, r = Some g -> Good m k (VFunc g))).
      - intros s S Ls K.
        assert (A : Post m X (fun k r => forall a, r = Some a -> exists k', k' <= k /\ Good m k' (VFunc a)) s (to_opt to_func v s)).
        { apply (safe_to_opt m X _ k v TFunction to_func (fun k g => Good m k (VFunc g))); auto.
          - apply (typed_if m _ v (is_coalescing f)). intros _. exact T.
          - intro Ty. now apply (safe_to_func m X). }
        destruct (to_opt to_func v s) as [r s'|e s'|fl|] eqn:E; cbn in *; auto. destruct A as (A1 & A2 & A3). split; [exact A1|]. split; [exact A2|]. split.
        + intros ->. destruct (lax_or_strict m) as [K' | K']; [exact K'|]. rewrite (Hc K') in T. cbn in T. unfold to_opt in E.
          destruct (is_unit v) eqn:U; [|destruct v; discriminate E]. apply is_unit_spec in U. subst v. inversion T. subst.
          match goal with H : AcceptsNone _ |- _ => apply unit_assignable_spec in H; discriminate H end.
        + intros g Eg. destruct (A3 g Eg) as (k' & L' & G'). now apply (good_mono m k').
      - intros k2 [g|] L2 [H1 H2]; [|apply safe_ret; intros; split; [apply good_unit|right; auto]]. specialize (H2 g eq_refl).
        eapply safe_bind; [apply safe_or_report, (safe_bind_call m X cover _ eval_safe); eassumption|]. intros k3 bs L3 B.
        apply call_safe; [now apply (good_mono m k2)|exact B].
    Qed.

    Lemma safe_let_vars imp ex vars : Forall (fun ne => GoodExpr m (snd ne) /\ match m with Strict _ T => disciplined_let T imp (fst ne) (snd ne) = true | _ => True end) vars ->
      (ex = true -> Forall (fun ne => GoodExportName m (fst ne)) vars) -> forall n, Safe n (fun _ _ => True) (let_vars R vars imp ex).
    Proof.
      induction vars as [|[x e] vars IH]; intros F Fx n; cbn [let_vars]; [now apply safe_ret|]. inversion F as [|? ? [Ge Gd] F']; subst. cbn [fst snd] in *.
      eapply safe_bind; [now apply eval_full|]. intros k v L [[G _] Hl]. specialize (Hl eq_refl).
      apply (safe_bind m X _ _ k (fun _ _ => True)).
      { destruct ex; [|now apply safe_ret]. apply safe_export; [exact G|]. specialize (Fx eq_refl). now inversion Fx. }
      intros k2 u L2 _. eapply safe_bind.
      - apply safe_set_var; [apply (good_mono m k); [exact L2|exact G]|]. unfold ImplicitOk, GoodName. destruct m as [| |g T]; [now destruct imp|now destruct imp|].
        unfold disciplined_let in Gd. destruct imp; [|exact Gd]. destruct (ngetm T x) as [t|]; [|discriminate]. destruct (literal e) as [w|]; [|discriminate]. eauto.
      - intros k3 u3 L3 _. apply IH; [exact F'|]. intro E. specialize (Fx E). now inversion Fx.
    Qed.
    Lemma safe_let_in n l t ex : GoodExpr m (ELetIn l) -> (ex = true -> match l with LetIn _ vars _ => Forall (fun ne => GoodExportName m (fst ne)) vars end) ->
      Safe n (fun k v => Good m k v /\ Fits m t v) (evaluate_let_in R l t ex).
    Proof.
      destruct l as [imp vars child]. intros G Gx. apply part_let in G as [Gv Gc]. unfold evaluate_let_in. apply safe_in_child_frame. intros k L.
      eapply safe_bind; [now apply safe_let_vars|]. intros k2 u L2 _. now apply eval_safe.
    Qed.
    Lemma safe_list_items l : Forall (fun x => GoodExpr m (fst x)) l -> forall n t, Safe n (fun k vs => Forall (Good m k) vs) (list_items R l t).
    Proof.
      induction l as [|[e sp] l IH]; intros F n t; cbn [list_items]; [apply safe_ret; constructor|]. inversion F; subst.
      apply (safe_bind m X _ _ n (fun k vs => Forall (Good m k) vs)).
      - destruct sp.
        + eapply safe_bind; [now apply eval_safe|]. intros k v L [G T].
          eapply (safe_weaken m X _ k); [apply (safe_to_list m X k v t); [exact G|intro K; now apply (fits_strict m)]|lia|]. now intros j a Lj [Ha _].
        + eapply safe_bind; [now apply eval_safe|]. intros k v L [G T]. apply safe_ret. intros j Lj. constructor; [now apply (good_mono m k)|constructor].
      - intros k vs L G. eapply safe_bind; [now apply IH|]. intros k2 rest L2 G2. apply safe_ret. intros j Lj. apply Forall_app. split; [apply (goods_mono m k); [lia|exact G]|now apply (goods_mono m k2)].
    Qed.
    Lemma safe_coerced n v t : Good m n v -> Safe n (fun k w => Good m k w /\ Fits m t w) (or_report (coerceM v t)).
    Proof. intro G. apply safe_or_report. eapply (safe_weaken m X _ n); [now apply safe_coerce|lia|]. intros j a Lj [A B]. split; [exact A|now left]. Qed.
    Lemma safe_eval_list l n t : GoodExpr m (EList l) -> Safe n (fun k w => Good m k w /\ Fits m t w) (evaluate_list R l t).
    Proof.
      intro G. apply part_list in G. unfold evaluate_list. eapply safe_bind; [now apply safe_list_items|]. intros k vs L Gv. apply safe_coerced. now apply good_list.
    Qed.
    Lemma safe_template ps : forall n, Safe n (fun _ _ => True) (template_text ps).
    Proof.
      induction ps as [|p ps IH]; intros n; cbn [template_text]; [now apply safe_ret|].
      apply (safe_bind m X _ _ n (fun _ _ => True)); [|intros k s L _; eapply safe_bind; [apply IH|intros; now apply safe_ret]].
      destruct p; try now apply safe_ret. eapply safe_bind; [apply safe_name|]. intros k v L [G T].
      eapply safe_bind; [apply (safe_to_opt m X _ k v TStr to_str (fun _ _ => True)); [intros _; exact T|intro Ty; now apply (safe_to_str m X)]|]. intros. now apply safe_ret.
    Qed.
    Lemma safe_export_names vars : Forall (fun ne => GoodExportName m (fst ne) /\ GoodExpr m (snd ne)) vars -> forall n, Safe n (fun _ _ => True) (export_names R vars).
    Proof.
      induction vars as [|[x e] vars IH]; intros F n; cbn [export_names]; [now apply safe_ret|]. inversion F as [|? ? [Gx Ge] F']; subst. cbn [fst snd] in *.
      eapply safe_bind; [now apply eval_safe|]. intros k v L [G _]. eapply safe_bind; [now apply safe_export|]. intros. now apply IH.
    Qed.
    Lemma func_def_name n s b s0 f s1 : compile_func_def (e_node R) (FuncDef n s b) s0 = Ok f s1 -> func_name f = n.
    Proof.
      unfold compile_func_def, bind, ret. destruct (frame_id s0); try discriminate. destruct (compile_func_signature _ _ _); try discriminate. intro H. injection H as <- _. reflexivity.
    Qed.
    Lemma safe_func_def_named n d : GoodDef m d -> Safe n (fun k f => Good m k (VFunc f) /\ match d with FuncDef x _ _ => func_name f = x end) (compile_func_def (e_node R) d).
    Proof.
      intros G s S L K. pose proof (safe_compile_func_def m X cover _ eval_safe n d G s S L K) as H.
      destruct (compile_func_def (e_node R) d s) as [f s'|e s'|c|] eqn:E; cbn in *; auto. destruct H as (A & B & C). split; [exact A|]. split; [exact B|]. split; [exact C|].
      destruct d. eapply func_def_name; eassumption.
    Qed.
    Lemma safe_compile_export n e : GoodExport m e -> Safe n (fun _ _ => True) (compile_export R e).
    Proof.
      destruct e as [vars|l|d]; cbn [compile_export GoodExport].
      - intro F. now apply safe_export_names.
      - intros [Gn G]. eapply safe_bind; [apply (safe_let_in n l TUnit true); auto|]. intros. now apply safe_ret.
      - intros [Gn G]. eapply safe_bind; [now apply safe_func_def_named|]. intros k f L [Gf En]. destruct d as [x s b].
        eapply safe_bind; [apply safe_export; [exact Gf|now rewrite En]|]. intros k2 u L2 _. apply safe_set_var; [now apply (good_mono m k)|]. cbn. rewrite En. exact (proj1 Gn).
    Qed.
    Lemma html_typed b v : HasType (if b : bool then TBlock else TInline) v -> HasType THtml v.
    Proof. intro H. destruct b; inversion H; subst; try constructor; unfold AcceptsNone; auto. Qed.
    Lemma safe_code_fence n src text b : Safe n (fun _ h => GoodHtml m h) (compile_code_fence R src text b).
    Proof.
      unfold compile_code_fence. eapply safe_bind; [apply safe_get_var|]. intros k v L G. eapply safe_bind; [now apply safe_coerce|]. intros k2 w L2 [G2 T2].
      eapply safe_bind; [apply (safe_to_func m X k2 w G2); intros _; exact T2|]. intros k3 f L3 Gf.
      eapply safe_bind; [apply (safe_bind_synthetic m X cover); [exact Gf|apply good_str]|]. intros k4 bs L4 B.
      eapply safe_bind; [apply call_safe; [now apply (good_mono m k3)|exact B]|]. intros k5 r L5 [Gr Fr].
      apply (safe_to_html m X); [exact Gr|]. intro K. apply (html_typed b). now apply (fits_strict m).
    Qed.

    Notation GoodPush kd := (fun (_ : nat) (r : option papyri_error * builder) => GK m kd (snd r)).
    Lemma safe_push_piece kd n h b : GoodHtml m h -> GK m kd b -> Safe n (GoodPush kd) (push_piece h b).
    Proof.
      intros G H. unfold push_piece. destruct (b_push_total h b (gb_kinds m b (proj1 H))) as [[e b'] E].
      apply (safe_bind m X _ _ n (fun _ r => GK m kd (snd r))).
      - rewrite E. apply safe_pure; [discriminate|]. intros a k [= <-] _. eapply gb_push; eassumption.
      - intros k r L Hr. apply safe_ret. auto.
    Qed.
    Lemma safe_push_result kd n p b : Safe n (fun _ h => GoodHtml m h) p -> GK m kd b -> Safe n (GoodPush kd) (push_result p b).
    Proof.
      intros H G. unfold push_result. eapply safe_bind; [apply safe_catch; exact H|]. intros k [h|e] L Hr; [now apply safe_push_piece|apply safe_ret; auto].
    Qed.
    Lemma safe_no_piece kd n p b : Safe n (fun _ _ => True) p -> GK m kd b -> Safe n (GoodPush kd) (no_piece p b).
    Proof. intros H G. unfold no_piece. eapply safe_bind; [apply safe_catch; exact H|]. intros. apply safe_ret. auto. Qed.
    Lemma safe_compile_node kd n x b : GoodNode m x -> GK m kd b -> Safe n (GoodPush kd) (compile_node R x b).
    Proof.
      intros G H. destruct x as [e|e|d|src text ml|s|c| |]; cbn [compile_node].
      - apply safe_no_piece; [|exact H]. apply safe_compile_export. now apply part_export.
      - apply safe_push_result; [|exact H]. eapply safe_bind; [apply eval_safe; now apply part_node_expr|]. intros k v L [Gv T].
        apply (safe_to_html m X); [exact Gv|]. intro K. now apply (fits_strict m).
      - apply safe_no_piece; [|exact H]. destruct d as [x s body]. apply part_node_def in G as [Gn G].
        eapply safe_bind; [apply (safe_compile_func_def m X cover _ eval_safe n _ G)|]. intros k f L Gf. now apply safe_set_var.
      - apply safe_push_result; [apply safe_code_fence|exact H].
      - apply safe_push_piece; [apply good_text|exact H].
      - apply safe_push_piece; [apply good_text|exact H].
      - apply safe_push_piece; [apply gh_white|exact H].
      - cbv zeta. apply safe_ret. intros. cbn [snd]. destruct (b_newline b) as [e b'] eqn:E. eapply gb_newline; eassumption.
    Qed.
    Lemma safe_compile_nodes kd ns : Forall (GoodNode m) ns -> forall n b, GK m kd b -> Safe n (fun _ b => GK m kd b) (compile_nodes R ns b).
    Proof.
      induction 1 as [|x ns G F IH]; intros n b H; cbn [compile_nodes]; [now apply safe_ret|].
      eapply safe_bind; [apply safe_compile_node; [exact G|exact H]|]. intros k r L Hr. cbv beta in Hr.
      apply (safe_bind m X _ _ k (fun _ _ => True)); [destruct (fst r); [now apply safe_report|now apply safe_ret]|]. intros k2 u L2 _. now apply IH.
    Qed.
    Lemma safe_sequence ns kind parent n : Forall (GoodNode m) ns -> good_kind kind -> Safe n (fun _ h => Content m kind h) (compile_sequence R ns kind parent).
    Proof.
      intros F Hk. unfold compile_sequence. eapply safe_bind; [apply safe_compile_nodes; [exact F|now apply gb_new]|]. intros k b L H. cbv beta in H.
      destruct (b_into_html b) as [h|e] eqn:E; [apply safe_ret; intros; eapply gb_into; eassumption|].
      eapply safe_bind; [apply (safe_report m X k _ (fun _ _ => True)); auto|]. intros. apply safe_ret. intros. now apply gb_empty.
    Qed.

    Lemma lower_plain s : PlainName s -> PlainName (List.map to_ascii_lower s).
    Proof.
      intros [A B]. split; [now destruct s|]. rewrite Forall_forall in *. intros c Hc. apply in_map_iff in Hc as (d & <- & Hd). specialize (B d Hd).
      unfold to_ascii_lower. destruct (is_ascii_upper d) eqn:E; [|exact B]. unfold is_ascii_upper, in_range in E. rewrite andb_true_iff, !N.leb_le in E.
      intro K. repeat (destruct K as [K|K]; [lia|]). destruct K.
    Qed.
    Lemma safe_tag_name n x : GoodTagName m x -> Safe n (fun _ r => m = Plain -> PlainName r) (compile_tag_name x).
    Proof.
      intro Gx. destruct x as [x|x]; cbn [compile_tag_name]; [apply safe_ret; auto|]. eapply safe_bind; [apply safe_name|]. intros k v L [G T].
      eapply safe_bind; [apply (safe_to_str m X); intros _; exact T|]. intros k2 s L2 _. destruct (is_identifier s) eqn:Ei; [apply safe_ret; intros _ _ _; now apply lower_plain, ident_plain|].
      destruct (str_eqb _ _); [apply safe_ret; intros _ _ _; now apply plain_ascii|]. eapply safe_bind; [apply (safe_report m X k2 _ (fun _ _ => True)); auto|]. intros. apply safe_fail.
    Qed.
    Definition Attrs (a : nmap (option str)) : Prop := NoDup (List.map fst a) /\ PlainKeys m a.
    Notation Distinct := (fun (_ : nat) a => Attrs a).
    Lemma safe_add_attr n a x v : (m = Plain -> PlainName x) -> Attrs a -> Safe n Distinct (add_attr a x v).
    Proof.
      intros P [H K]. unfold add_attr. destruct (nhas a x).
      - eapply safe_bind; [apply (safe_report m X n _ (fun _ _ => True)); auto|]. intros. apply safe_fail.
      - apply safe_ret. intros. split; [now apply ninsert_nodup|now apply plain_insert].
    Qed.
    Lemma safe_add_attrs l : (m = Plain -> Forall PlainName (List.map fst l)) -> forall n a, Attrs a -> Safe n Distinct (add_attrs a l).
    Proof.
      induction l as [|[x v] l IH]; intros P n a H; cbn [add_attrs]; [now apply safe_ret|].
      eapply safe_bind; [apply safe_add_attr; [intro E; specialize (P E); now inversion P|exact H]|]. intros k a2 L H2. apply IH; [|exact H2].
      intro E. specialize (P E). now inversion P.
    Qed.
    Lemma safe_attrs l : Forall (GoodAttr m) l -> forall n a, Attrs a -> Safe n Distinct (compile_attrs R l a).
    Proof.
      induction 1 as [|x l G F IH]; intros n a H; cbn [compile_attrs]; [now apply safe_ret|].
      apply (safe_bind m X _ _ n Distinct); [|intros k a2 L H2; now apply IH]. destruct x as [x q [e|]|e]; cbn in G; [destruct G as [Gx G]; specialize (G e eq_refl)|destruct G as [Gx G]|].
      - eapply safe_bind; [now apply eval_safe|]. intros k v L [Gv T].
        eapply safe_bind; [apply (safe_to_opt m X _ k v TStr to_str (fun _ _ => True))|].
        + apply (typed_if m _ v q). intro K. now apply (fits_strict m).
        + intro Ty. now apply (safe_to_str m X).
        + intros k2 [s|] L2 _; [now apply safe_add_attr|now apply safe_ret].
      - now apply safe_add_attr.
      - eapply safe_bind; [now apply eval_safe|]. intros k v L [Gv T].
        destruct v as [b|z|s|vs|vs|h|g|r]; cbn [to_dict]; try (apply (safe_bind m X _ _ k (fun _ _ => False)); [apply (safe_convert m X _ k _ (TDict (t_option TStr)) UNIT)|contradiction]).
        all: try (intro K; apply (fits_strict m) in T; [|exact K]; inversion T; subst; match goal with H : AcceptsNone _ |- _ => apply unit_assignable_spec in H; discriminate H end).
        all: try (intro K; inversion K; subst; match goal with H : AcceptsNone _ |- _ => apply unit_assignable_spec in H; discriminate H end).
        eapply (safe_bind m X _ _ k (fun k vs' => vs' = vs)); [apply safe_ret; auto|]. intros k1 ? L1 ->. apply good_dict in Gv as [[_ Gv] Kv].
        eapply safe_bind; [apply (safe_to_each m X _ (fun v => to_opt to_str v) (TOptional TStr) (fun _ => True))|].
        + intros j w Gw Tw. eapply (safe_weaken m X _ j); [apply (safe_to_opt m X _ j w TStr to_str (fun _ _ => True)); [exact Tw|intro Ty; now apply (safe_to_str m X)]|lia|auto].
        + apply (goods_mono m k); [exact L1|exact Gv].
        + intro K. apply (fits_strict m) in T; [|exact K]. inversion T; subst. unfold nvalues. apply Forall_map. assumption.
        + intros. apply safe_add_attrs; [|exact H]. intro E. specialize (Kv E). rewrite Forall_forall in *. intros y Hy. apply Kv.
          apply in_map_iff in Hy as ([y1 y2] & <- & Hy). now apply in_combine_l in Hy.
    Qed.
    Lemma safe_tag n x l ns : GoodExpr m (ETag x l ns) -> Safe n (fun _ h => GoodHtml m h /\ ~ IsText h) (compile_tag R x l ns).
    Proof.
      intro G. apply part_tag in G as (Gx & Gl & Gn). unfold compile_tag. eapply safe_bind; [now apply safe_tag_name|]. intros k nm L Pn.
      eapply safe_bind; [apply safe_attrs; [exact Gl|split; [constructor|intros _; constructor]]|]. intros k2 a L2 [Ha Ka]. eapply safe_bind; [apply safe_sequence; [exact Gn|apply kind_for_good]|].
      intros k3 h L3 [Hh Hv]. apply safe_ret. intros. split; [|intros []]. apply gh_tag; [exact Ha| |exact Hh]. intro E. split; [now apply Pn|]. split; [now apply Ka|].
      intro V. apply Hv. now apply void_content.
    Qed.

    Notation Result t := (fun k v => Good m k v /\ Fits m t v).
    Lemma safe_node : forall n e t, GoodExpr m e -> Safe n (Result t) (evaluate_node X R e t).
    Proof.
      intros n e t G. assert (C : forall n p, Safe n (Good m) p -> Safe n (Result t) (let* v := p in or_report (coerceM v t))).
      { intros k p H. eapply safe_bind; [exact H|]. intros. now apply safe_coerced. }
      destruct e; cbn [evaluate_node]; cbv zeta.
      - apply C, safe_ret. intros. apply good_unit.
      - apply C, safe_ret. intros. apply good_bool.
      - apply C, safe_ret. intros. apply good_int.
      - apply C, safe_ret. intros. apply good_str.
      - apply C, safe_ret. intros. apply good_str.
      - now apply safe_func_call.
      - eapply safe_bind; [apply (safe_compile_func_def m X cover _ eval_safe); now apply part_fn|]. intros k f L Gf. destruct (t_is_html t).
        + eapply safe_bind; [apply (safe_report m X k _ (fun _ _ => True)); auto|]. intros. apply safe_fail.
        + apply C, safe_ret. intros. now apply (good_mono m k).
      - apply safe_let_in; [exact G|discriminate].
      - apply part_match in G as [G1 G2]. apply (safe_evaluate_match m X groups_are _ eval_safe); assumption.
      - apply C. eapply safe_bind; [apply safe_sequence; [now apply part_group|]|]. { unfold good_kind, all_kinds. cbn. tauto. }
        intros k h L [Hh _]. apply safe_ret. intros. now apply good_of_html.
      - now apply safe_eval_list.
      - apply C. eapply safe_bind; [apply safe_template|]. intros. apply safe_ret. intros. apply good_str.
      - apply C. eapply safe_bind; [now apply safe_tag|]. intros k h L Hh. apply safe_ret. intros. now apply good_html.
      - eapply (safe_weaken m X _ n); [apply safe_name|lia|]. intros j a Lj [A B]. split; [exact A|now left].
    Qed.
  End Step.
End Eval.
