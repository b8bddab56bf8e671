(** Proofs about sound states: the native functions (C47, C57). *)
From Verif Require Import Base BaseFacts M_Names M_TagInfo M_Html S_Html P_Html M_Path M_TextSubs M_Int M_Token M_Types M_Diag M_SliceRef M_SourceFile M_Highlight M_Ast M_Value
  M_State M_Binder M_HtmlParse M_Text M_Native S_Util P_Util S_Types P_Types P_Coerce S_Scope P_State P_Scope S_Call P_Call P_Match S_Safe P_SafeBase P_SafeMonad P_SafeBind P_SafeMatch P_SafeHtml.

Lemma lit_listing path f stem : f = stem ++ lit ".papyri" -> strip_papyri (trim_slashes path ++ lit "/" ++ f) <> None.
Proof.
  intros ->. unfold strip_papyri. rewrite !app_assoc, rev_app_distr.
  assert (H : forall p q, strip_prefix p (p ++ q) = Some q).
  { induction p as [|c p IH]; intro q; [reflexivity|]. cbn. rewrite N.eqb_refl. apply IH. }
  rewrite H. discriminate.
Qed.
Lemma sum_panic X l : forall acc, sum_ints X l acc = Panic -> x_checks X = true.
Proof.
  induction l as [|x l IH]; intro acc; cbn [sum_ints]; [discriminate|]. unfold i64. destruct (i64_ok (acc + x)); cbn [obind]; [apply IH|].
  destruct (x_checks X); [reflexivity|]. cbn [obind]. apply IH.
Qed.
Lemma i64_panic c z : i64 c z = Panic -> c = true.
Proof. unfold i64. destruct (i64_ok z); [discriminate|]. destruct c; [reflexivity|discriminate]. Qed.
Lemma enumerate_panic X vs : forall i z, enumerate_list X vs i z = Panic -> x_checks X = true.
Proof.
  induction vs as [|v vs IH]; intros i z; cbn [enumerate_list]; [discriminate|].
  destruct (i64 (x_checks X) (Z.of_nat i + z)) eqn:E; cbn [obind]; [|intros _; eapply i64_panic; exact E|discriminate].
  destruct (enumerate_list X vs (S i) z) eqn:E2; cbn [obind]; [discriminate| |discriminate]. intros _. eapply IH. exact E2.
Qed.
Lemma enumerate_lines_panic c ls : forall z, enumerate_lines c ls z = Panic -> c = true.
Proof.
  intro z. unfold enumerate_lines. assert (H : forall i, enumerate_loop c ls i z = Panic -> c = true).
  - induction ls as [|x ls IH]; intros i; cbn [enumerate_loop]; [discriminate|].
    destruct (i64 c (Z.of_nat i + z)) eqn:E; cbn [obind]; [|intros _; eapply i64_panic; exact E|discriminate].
    destruct (enumerate_loop c ls (S i) z) eqn:E2; cbn [obind]; [discriminate| |discriminate]. intros _. eapply IH. exact E2.
  - destruct (enumerate_loop c ls 0 z) eqn:E; cbn [obind]; [discriminate| |discriminate]. intros _. eapply H. exact E.
Qed.

Section Natives.
  Variable m : mode.
  Variable X : externals.
  Notation Safe := (Safe m X).
  Hypothesis cover : Covers m.
  Variable call : func -> nmap value -> ty -> str -> EM value.
  Hypothesis call_safe : forall n f bs t src, Good m n (VFunc f) -> Bindings m (func_sig f) n bs ->
    Safe n (fun k v => Good m k v /\ Fits m t v) (call f bs t src).
  Variable load_cached : str -> EM (html * nmap value).
  Hypothesis load_safe : forall n p, Safe n (fun k r => GoodHtml m (fst r) /\ GoodExports m k (snd r)) (load_cached p).

  Hypothesis dom_plain : m = Plain -> forall s, PlainDom (x_lower X) (snd (x_html_parse X s)).

  (** ** Conversions *)
  Definition Typed (t : ty) (v : value) : Prop := ~ Loose m -> HasType t v.
  Lemma safe_convert A n (Q : nat -> A -> Prop) t v : Typed t v -> ~ HasType t v -> Safe n Q (crash FConvert).
  Proof. intros H N. apply (safe_fconvert m X). intro K. exact (N (H K)). Qed.
  Ltac mistyped H := let Kt := fresh "Kt" in apply (safe_convert _ _ _ _ _ H); intro Kt; inversion Kt; subst;
    match goal with K : AcceptsNone _ |- _ => apply unit_assignable_spec in K; discriminate K end.
  Lemma safe_to_bool n v : Typed TBool v -> Safe n (fun _ _ => True) (to_bool v).
  Proof. intro H. destruct v; cbn [to_bool]; try (mistyped H). now apply safe_ret. Qed.
  Lemma safe_to_int n v : Typed TInt v -> Safe n (fun _ _ => True) (to_int v).
  Proof. intro H. destruct v; cbn [to_int]; try (mistyped H). now apply safe_ret. Qed.
  Lemma safe_to_str n v : Typed TStr v -> Safe n (fun _ _ => True) (to_str v).
  Proof. intro H. destruct v; cbn [to_str]; try (mistyped H). now apply safe_ret. Qed.
  Lemma safe_to_regex n v : Good m n v -> Typed TRegex v -> Safe n (fun _ r => GoodRegex m r) (to_regex v).
  Proof. intros G H. destruct v; cbn [to_regex]; try (mistyped H). apply safe_ret. intros. now apply (good_regex m n). Qed.
  Lemma safe_to_html n v : Good m n v -> Typed THtml v -> Safe n (fun _ h => GoodHtml m h) (to_htmlM v).
  Proof.
    intros G H. unfold to_htmlM. destruct (to_html v) eqn:E; [apply safe_ret; intros; eapply good_to_html; eassumption|].
    destruct v; try discriminate E; mistyped H.
  Qed.
  Lemma safe_to_func n v : Good m n v -> Typed TFunction v -> Safe n (fun k f => Good m k (VFunc f)) (to_func v).
  Proof. intros G H. destruct v; cbn [to_func]; try (mistyped H). apply safe_ret. intros. now apply (good_mono m n). Qed.
  Lemma safe_to_list n v t : Good m n v -> Typed (TList t) v -> Safe n (fun k vs => Forall (Good m k) vs /\ (~ Loose m -> Forall (HasType t) vs)) (to_list v).
  Proof.
    intros G H. destruct v; cbn [to_list]; try (mistyped H). apply safe_ret. intros k L. apply good_list in G. split; [now apply (goods_mono m n)|].
    intro K. destruct (list_typed _ _ (H K)) as (ws & [= <-] & F). exact F.
  Qed.
  Lemma safe_to_dict n v t : Good m n v -> Typed (TDict t) v -> Safe n (fun k vs => GoodNamed m k vs) (to_dict v).
  Proof.
    intros G H. destruct v; cbn [to_dict]; try (mistyped H). apply safe_ret. intros k L. apply good_dict in G. now apply (named_mono m n).
  Qed.
  Lemma typed_some t v : Typed (TOptional t) v -> is_unit v = false -> Typed t v.
  Proof.
    intros H U K. specialize (H K). inversion H; subst; auto. discriminate U.
  Qed.
  Lemma safe_to_opt A n v t (f : value -> EM A) Q : Typed (TOptional t) v -> (Typed t v -> Safe n Q (f v)) ->
    Safe n (fun k r => forall a, r = Some a -> exists k', k' <= k /\ Q k' a) (to_opt f v).
  Proof.
    intros H Hf. unfold to_opt. destruct (is_unit v) eqn:U; [apply safe_ret; discriminate|]. eapply safe_bind; [apply Hf; now apply typed_some|].
    intros k a L Ha. apply safe_ret. intros j Lj a' [= <-]. eauto.
  Qed.
  Lemma safe_to_each A (f : value -> EM A) t (Q : A -> Prop) :
    (forall n v, Good m n v -> Typed t v -> Safe n (fun _ a => Q a) (f v)) -> forall vs n, Forall (Good m n) vs -> (~ Loose m -> Forall (HasType t) vs) ->
    Safe n (fun _ r => Forall Q r) (to_each f vs).
  Proof.
    intro Hf. induction vs as [|v vs IH]; intros n G T; cbn [to_each]; [apply safe_ret; constructor|]. inversion G; subst.
    eapply safe_bind; [apply Hf; [assumption|intro K; specialize (T K); now inversion T]|]. intros k a L Ha.
    eapply safe_bind; [apply IH; [now apply (goods_mono m n)|intro K; specialize (T K); now inversion T]|]. intros j l Lj Hl. apply safe_ret. now constructor.
  Qed.

  (** ** Callbacks *)
  Lemma safe_callback_any n f v src : Good m n (VFunc f) -> Good m n v -> Safe n (Good m) (callback_any call f v src).
  Proof.
    intros Gf Gv. unfold callback_any, eval_callback. eapply safe_bind; [now apply (safe_bind_synthetic m X cover)|]. intros k bs L B.
    eapply safe_bind; [apply call_safe; [now apply (good_mono m n)|exact B]|]. intros j w Lj [G _]. apply safe_ret. intros. now apply (good_mono m j).
  Qed.
  Lemma safe_callback_bool n f v src : Good m n (VFunc f) -> Good m n v -> Safe n (fun _ _ => True) (callback_bool call f v src).
  Proof.
    intros Gf Gv. unfold callback_bool, eval_callback. eapply safe_bind; [now apply (safe_bind_synthetic m X cover)|]. intros k bs L B.
    eapply safe_bind; [apply call_safe; [now apply (good_mono m n)|exact B]|]. intros j w Lj [G F]. apply safe_to_bool. intro K. now apply (fits_strict m).
  Qed.
  Lemma safe_find_first want f src vs : forall n, Good m n (VFunc f) -> Forall (Good m n) vs ->
    Safe n (fun k r => forall v, r = Some v -> Good m k v) (find_first call want f vs src).
  Proof.
    induction vs as [|v vs IH]; intros n Gf G; cbn [find_first]; [apply safe_ret; discriminate|]. inversion G; subst.
    eapply safe_bind; [now apply safe_callback_bool|]. intros k b L _. destruct (Bool.eqb b want).
    - apply safe_ret. intros j Lj w [= <-]. apply (good_mono m n); [lia|assumption].
    - apply IH; [now apply (good_mono m n)|now apply (goods_mono m n)].
  Qed.
  Lemma safe_filter_list f src vs : forall n, Good m n (VFunc f) -> Forall (Good m n) vs -> Safe n (fun k r => Forall (Good m k) r) (filter_list call f vs src).
  Proof.
    induction vs as [|v vs IH]; intros n Gf G; cbn [filter_list]; [apply safe_ret; constructor|]. inversion G; subst.
    eapply safe_bind; [now apply safe_callback_bool|]. intros k b L _.
    eapply safe_bind; [apply IH; [now apply (good_mono m n)|now apply (goods_mono m n)]|]. intros j out Lj Ho. apply safe_ret. intros i Li.
    apply (goods_mono m j i) in Ho; [|exact Li]. destruct b; [|exact Ho]. constructor; [|exact Ho]. apply (good_mono m n); [lia|assumption].
  Qed.
  Lemma safe_map_list f src vs : forall n, Good m n (VFunc f) -> Forall (Good m n) vs -> Safe n (fun k r => Forall (Good m k) r) (map_list call f vs src).
  Proof.
    induction vs as [|v vs IH]; intros n Gf G; cbn [map_list]; [apply safe_ret; constructor|]. inversion G; subst.
    eapply safe_bind; [now apply safe_callback_any|]. intros k r L Hr.
    eapply safe_bind; [apply IH; [now apply (good_mono m n)|now apply (goods_mono m n)]|]. intros j out Lj Ho. apply safe_ret. intros i Li.
    constructor; [apply (good_mono m k); [lia|exact Hr]|now apply (goods_mono m j)].
  Qed.
  Lemma safe_decorate key src vs : forall n t, (forall f, key = Some f -> Good m n (VFunc f)) -> Forall (Good m n) vs ->
    Safe n (fun k r => Forall (fun kv => Good m k (snd kv)) r) (decorate call key vs t src).
  Proof.
    induction vs as [|v vs IH]; intros n t Gf G; cbn [decorate]; [apply safe_ret; constructor|]. inversion G; subst.
    apply (safe_bind m X _ _ n (Good m)).
    - destruct key as [f|]; [apply safe_callback_any; auto|]. apply safe_ret. intros. now apply (good_mono m n).
    - intros k r L Hr. destruct r; try apply safe_fail.
      all: match goal with |- context [if ?c then _ else _] => destruct c end; [apply safe_fail|].
      all: eapply safe_bind; [apply (IH k); [intros f E; apply (good_mono m n); auto|now apply (goods_mono m n)]|].
      all: intros j out Lj Ho; apply safe_ret; intros z Lz; constructor; [apply (good_mono m n); [lia|assumption]|].
      all: eapply Forall_impl; [|exact Ho]; intros a; now apply good_mono.
  Qed.
  Lemma in_insert_by A (leb : A -> A -> bool) x l y : In y (insert_by leb x l) -> y = x \/ In y l.
  Proof.
    induction l as [|z l IH]; cbn; [intros [E | []]; auto|]. destruct (leb x z); cbn; [intros [E | [E | H]]; auto|].
    intros [E | H]; [auto|]. apply IH in H as [H | H]; auto.
  Qed.
  Lemma in_sort_by A (leb : A -> A -> bool) l y : In y (sort_by leb l) -> In y l.
  Proof. induction l as [|x l IH]; cbn; [auto|]. intro H. apply in_insert_by in H as [->|H]; auto. Qed.
  Lemma safe_sorted key rev0 src vs n : (forall f, key = Some f -> Good m n (VFunc f)) -> Forall (Good m n) vs ->
    Safe n (fun k r => Forall (Good m k) r) (native_sorted call key rev0 vs src).
  Proof.
    intros Gf G. unfold native_sorted. destruct vs as [|v vs]; [apply safe_ret; constructor|].
    eapply safe_bind; [now apply safe_decorate|]. intros k ds L Hd. cbv zeta. apply safe_ret. intros j Lj.
    assert (F : forall ds', (forall x, In x ds' -> In x ds) -> Forall (Good m j) (List.map snd (sort_by (fun a b : value * value => key_leb (fst a) (fst b)) ds'))).
    { intros ds' Hin. apply Forall_forall. intros w Hw. apply in_map_iff in Hw as (e & <- & He). apply in_sort_by in He. apply Hin in He.
      rewrite Forall_forall in Hd. apply (good_mono m k); auto. }
    destruct rev0; [apply Forall_rev|]; apply F; auto. intros x Hx. now apply in_rev.
  Qed.

  (** ** Other parts *)
  Lemma safe_listed dir errs p : forall files, (forall f, In f files -> exists fs, x_list_dir X dir = Some (errs, fs) /\ In f fs) ->
    forall n, Safe n (fun _ _ => True) (listed_files p files).
  Proof.
    induction files as [|f files IH]; intros H n; cbn [listed_files]; [now apply safe_ret|].
    destruct (strip_papyri (trim_slashes p ++ lit "/" ++ f)) eqn:E.
    - eapply safe_bind; [apply IH; intros g Hg; apply H; now right|]. intros. now apply safe_ret.
    - apply safe_crash. right. cbn. destruct (H f (or_introl eq_refl)) as (fs & Hx & Hf). exists dir, errs, fs, f. split; [exact Hx|]. split; [exact Hf|].
      intros stem Es. now apply (lit_listing p f stem Es).
  Qed.
  Lemma safe_report_all es : forall n, Safe n (fun _ _ => True) (report_all es).
  Proof.
    induction es as [|e es IH]; intros n; cbn [report_all]; [now apply safe_ret|]. eapply safe_bind; [apply (safe_report m X n e (fun _ _ => True)); auto|]. intros. apply IH.
  Qed.
  Lemma safe_set_vars vs : forall n, Forall (Good m n) (nvalues vs) -> Forall (GoodName m) (nkeys vs) -> Safe n (fun _ _ => True) (set_vars vs).
  Proof.
    induction vs as [|[x v] vs IH]; intros n G N; cbn [set_vars]; [now apply safe_ret|]. inversion G; subst. inversion N; subst.
    eapply safe_bind; [apply safe_set_var; [eassumption|assumption]|]. intros k u L _. apply IH; [now apply (goods_mono m n)|assumption].
  Qed.
  Lemma safe_push_out n p h : GoodHtml m h -> Safe n (fun _ _ => True) (push_out_file p h).
  Proof.
    intros G s S L K. unfold push_out_file. destruct (st_out s) as [o|] eqn:Eo; [|cbn; split; [exact S|apply step_refl]].
    unfold try_push. destruct (make_relative (base_path o) p) as [q|]; cbn; [|split; [exact S|apply step_refl]].
    split; [|split; [repeat split; auto|exact I]]. destruct S as [R F E M O]. constructor; cbn; auto.
    intros o' [= <-]. cbn. apply Forall_app. split; [now apply O|]. constructor; [exact G|constructor].
  Qed.
  Lemma safe_unique_id n b k0 : Safe n (fun _ _ => True) (new_unique_id (x_deunicode X) b k0).
  Proof.
    intros s S L K. unfold new_unique_id. destruct (get_unique_id (x_deunicode X) (st_uids s) b k0) as [[id used]| |]; cbn; [|right; exact I|exact I].
    split; [|split; [repeat split; auto|exact I]]. destruct S as [R F E M O]. now constructor.
  Qed.
  Lemma safe_fetch n p : Safe n (fun _ _ => True) (native_fetch X p).
  Proof. unfold native_fetch. destruct (x_fetch X) as [f|]; [destruct (f p); [now apply safe_ret|]|]; apply safe_fail. Qed.
  Lemma safe_parse_html n s : Safe n (Good m) (parse_html X s).
  Proof.
    unfold parse_html. destruct (html_errors (fst (x_html_parse X s))); [|apply safe_fail].
    eapply (safe_bind m X _ _ n (fun _ h => GoodHtml m h)); [|intros k h L G; apply safe_ret; intros; now apply good_of_html].
    apply safe_pure; [|intros h k E _; exact (gives_node (m := m) _ _ (fun K => dom_plain K s) _ E)]. intro E. right. exists s. eapply node_panic. exact E.
  Qed.
  Lemma safe_compile_regex n s : Safe n (Good m) (compile_regex X s).
  Proof.
    unfold compile_regex. destruct (x_regex X s) as [[|g gs]|]; try apply safe_fail; [apply safe_ret; intros; apply good_regex; intros _; exact I|].
    destruct (forallb _ (g :: gs)); [apply safe_ret; intros; apply good_regex; intros _; exact I|]. destruct (forallb _ (g :: gs)); [|apply safe_fail]. cbv zeta.
    destruct (find _ _) eqn:Ef; [apply safe_fail|]. apply safe_ret. intros. apply good_regex. intros _. cbn [rx_kind]. apply Forall_forall. intros x Hx.
    apply (List.find_none _ _ Ef) in Hx. apply negb_false_iff in Hx. now apply ident_plain.
  Qed.
  Lemma good_group n g : Good m n (group_value g).
  Proof. destruct g; [apply good_str|apply good_unit]. Qed.
  Lemma good_captures n r gs : GoodRegex m r -> Good m n (captures_to_value (rx_kind r) gs).
  Proof.
    unfold GoodRegex. generalize (rx_kind r). clear r. intros k R. destruct k; cbn [captures_to_value].
    - destruct gs; [apply good_unit|apply good_group].
    - apply good_list. apply Forall_map, Forall_forall. intros. apply good_group.
    - apply good_dict. split; [|apply plain_from; intro E; specialize (R E); rewrite Forall_forall in *; intros x Hx; apply R; apply in_map_iff in Hx as ([a b] & <- & H); now apply in_combine_l in H].
      apply map_from. apply Forall_forall. intros v Hv. apply in_map_iff in Hv as ([a b] & <- & H). apply in_combine_r in H.
      apply in_map_iff in H as (g & <- & _). apply good_group.
  Qed.
  Lemma safe_code n l b z s : Safe n (fun _ h => GoodHtml m h /\ ~ IsText h) (native_code X l b z s).
  Proof.
    unfold native_code. cbv zeta. destruct (if b then get_source_language_hint s _ else _) as [lang code].
    eapply safe_bind; [apply (safe_pure m X _ n (fun _ _ => True)); [right; exact I|auto]|]. intros k c L _.
    eapply (safe_bind m X _ _ k (fun _ r => Forall (GoodHtml m) (fst r))).
    { apply safe_pure; [right; exact I|]. intros r k2 E _. now apply (gives_highlight (m := m)) in E. }
    intros k2 [ls w] L2 Hl. cbn in Hl. eapply (safe_bind m X _ _ k2 (fun _ _ => True)).
    { destruct w; [now apply safe_report|now apply safe_ret]. }
    intros k3 u L3 _. eapply (safe_bind m X _ _ k3 (fun _ h => GoodHtml m h)).
    - destruct b.
      + apply safe_pure; [|intros h k4 E _; now apply (gives_enumerate (m := m)) in E]. intro E. right. cbn. eapply enumerate_lines_panic. exact E.
      + eapply (safe_bind m X _ _ k3 (fun _ _ => True)); [destruct (z =? 1)%Z; [now apply safe_ret|now apply safe_report]|]. intros k4 u4 L4 _.
        eapply (safe_bind m X _ _ k4 (fun _ _ => True)); [destruct (1 <? length ls); [now apply safe_report|now apply safe_ret]|]. intros k5 u5 L5 _.
        apply safe_ret. intros. now apply gh_from_iter.
    - intros k4 h L4 Hh. apply safe_ret. intros. split; [|intros []]. apply gh_static; [|destruct w; [|destruct (str_eqb lang (lit "none"))]; reflexivity|reflexivity|exact Hh].
      destruct w; [constructor|]. destruct (str_eqb lang (lit "none")); cbn; repeat constructor. intros [].
  Qed.

  (** ** The arguments of a native function *)
  Definition has (f : native_func) (nm : string) (t : ty) : bool :=
    existsb (fun p => str_eqb (p_name p) (lit nm) && ty_eqb (p_type p) t) (params (native_sig f)).
  Notation take bs nm := (match ngetm bs (lit nm) with Some v => ret v | None => crash FArgument end).
  Section Args.
    Variables (f : native_func) (bs : nmap value) (n0 : nat).
    Hypothesis B : Bindings m (native_sig f) n0 bs.
    Lemma safe_take nm t n : has f nm t = true -> n0 <= n -> Safe n (fun k v => Good m k v /\ Typed t v) (take bs nm).
    Proof.
      intros H L. apply existsb_exists in H as (p & Hp & E). apply andb_true_iff in E as [E1 E2]. apply str_eqb_eq in E1. apply ty_eqb_eq in E2. subst t.
      destruct B as [G T]. destruct (ngetm bs (lit nm)) eqn:Eg.
      - apply safe_ret. intros k Lk. split; [apply (good_mono m n0); [lia|now apply (map_get m _ bs (lit nm))]|].
        intro K. destruct (T K p Hp) as (v' & Ev & Hv). rewrite E1, Eg in Ev. injection Ev as <-. exact Hv.
      - apply safe_crash. left. destruct (lax_or_strict m) as [K | K]; [exact K|]. destruct (T K p Hp) as (v' & Ev & Hv). rewrite E1, Eg in Ev. discriminate.
    Qed.
    Lemma safe_arg A nm t n (conv : value -> EM A) Q : has f nm t = true -> n0 <= n ->
      (forall k v, n <= k -> Good m k v -> Typed t v -> Safe k Q (conv v)) -> Safe n Q (bind (take bs nm) conv).
    Proof. intros H L C. eapply safe_bind; [now apply (safe_take nm t)|]. intros k v Lk [G T]. now apply C. Qed.
    Lemma arg_bool nm n : has f nm TBool = true -> n0 <= n -> Safe n (fun _ _ => True) (bind (take bs nm) to_bool).
    Proof. intros H L. apply (safe_arg _ nm TBool); auto. intros. now apply safe_to_bool. Qed.
    Lemma arg_int nm n : has f nm TInt = true -> n0 <= n -> Safe n (fun _ _ => True) (bind (take bs nm) to_int).
    Proof. intros H L. apply (safe_arg _ nm TInt); auto. intros. now apply safe_to_int. Qed.
    Lemma arg_str nm n : has f nm TStr = true -> n0 <= n -> Safe n (fun _ _ => True) (bind (take bs nm) to_str).
    Proof. intros H L. apply (safe_arg _ nm TStr); auto. intros. now apply safe_to_str. Qed.
    Lemma arg_regex nm n : has f nm TRegex = true -> n0 <= n -> Safe n (fun _ r => GoodRegex m r) (bind (take bs nm) to_regex).
    Proof. intros H L. apply (safe_arg _ nm TRegex); auto. intros. now apply safe_to_regex. Qed.
    Lemma arg_html nm n : has f nm THtml = true -> n0 <= n -> Safe n (fun _ h => GoodHtml m h) (bind (take bs nm) to_htmlM).
    Proof. intros H L. apply (safe_arg _ nm THtml); auto. intros. now apply safe_to_html. Qed.
    Lemma arg_func nm n : has f nm TFunction = true -> n0 <= n -> Safe n (fun k f => Good m k (VFunc f)) (bind (take bs nm) to_func).
    Proof. intros H L. apply (safe_arg _ nm TFunction); auto. intros. now apply safe_to_func. Qed.
    Lemma arg_list nm t n : has f nm (TList t) = true -> n0 <= n ->
      Safe n (fun k vs => Forall (Good m k) vs /\ (~ Loose m -> Forall (HasType t) vs)) (bind (take bs nm) to_list).
    Proof. intros H L. apply (safe_arg _ nm (TList t)); auto. intros. now apply safe_to_list. Qed.
    Lemma arg_dict nm n : has f nm (TDict TAny) = true -> n0 <= n -> Safe n (fun k vs => GoodNamed m k vs) (bind (take bs nm) to_dict).
    Proof. intros H L. apply (safe_arg _ nm (TDict TAny)); auto. intros. eapply safe_to_dict; eassumption. Qed.
    Lemma arg_opt_func nm n : has f nm (TOptional TFunction) = true -> n0 <= n ->
      Safe n (fun k r => forall g, r = Some g -> Good m k (VFunc g)) (bind (take bs nm) (to_opt to_func)).
    Proof.
      intros H L. apply (safe_arg _ nm (TOptional TFunction)); auto. intros k v Lk G T. eapply (safe_weaken m X _ k); [apply (safe_to_opt _ k v TFunction to_func (fun k f => Good m k (VFunc f))); [exact T|intro T'; now apply safe_to_func]|lia|].
      cbv beta. intros j r Lj Hr g E. destruct (Hr g E) as (k' & L' & G'). now apply (good_mono m k').
    Qed.
    Lemma arg_opt A nm t n (conv : value -> EM A) : has f nm (TOptional t) = true -> n0 <= n -> (forall k v, Typed t v -> Safe k (fun _ _ => True) (conv v)) ->
      Safe n (fun _ _ => True) (bind (take bs nm) (to_opt conv)).
    Proof.
      intros H L C. apply (safe_arg _ nm (TOptional t)); auto. intros k v Lk G T. eapply (safe_weaken m X _ k); [apply (safe_to_opt _ k v t conv (fun _ _ => True)); [exact T|apply C]|lia|auto].
    Qed.
  End Args.

  Lemma in_element (vs : list value) i v : ElementAt vs i v -> In v vs.
  Proof. intro H. destruct H; subst; apply in_elt. Qed.
  Lemma in_slice (vs : list value) i j out : Slice vs i j out -> forall v, In v out -> In v vs.
  Proof. intros H v Hv. destruct H; [|destruct Hv]. subst. rewrite !in_app_iff. auto. Qed.
  Lemma good_strs n l : Good m n (VList (List.map VStr l)).
  Proof. apply good_list. apply Forall_map, Forall_forall. intros. apply good_str. Qed.
  Lemma enumerate_good n from vs : forall i out, Forall (Good m n) vs -> enumerate_list X vs i from = Ret out -> Forall (Good m n) out.
  Proof.
    induction vs as [|v vs IH]; intros i out G; cbn [enumerate_list]; [intros [= <-]; constructor|]. inversion G; subst.
    destruct (i64 (x_checks X) (Z.of_nat i + from)); cbn; try discriminate. destruct (enumerate_list X vs (S i) from) eqn:E; cbn; try discriminate.
    intros [= <-]. constructor; [|eauto]. apply good_list. repeat constructor; [apply good_int|assumption].
  Qed.

  Ltac arg lem := (eapply safe_bind; [eapply lem; [eassumption|reflexivity|lia]|]).
  Tactic Notation "into" simple_intropattern(p) := let kk := fresh "kk" in let aa := fresh "aa" in let ll := fresh "ll" in intros kk aa ll p; cbv beta in *.
  Ltac argb := arg arg_bool; into _.
  Ltac argi := arg arg_int; into _.
  Ltac args := arg arg_str; into _.
  Ltac argr := arg arg_regex; into ?.
  Ltac argh := arg arg_html; into ?.
  Ltac argf := arg arg_func; into ?.
  Ltac arglt t := (match goal with B : Bindings _ _ _ _ |- _ => eapply safe_bind; [eapply (arg_list _ _ _ B _ t); [reflexivity|lia]|] end).
  Ltac argl := arglt TAny; into [? ?].
  Ltac argd := arg arg_dict; into ?.
  Ltac leaf := apply safe_ret; intros; first [apply good_bool | apply good_int | apply good_str | apply good_strs | apply good_unit].
  Ltac up := cbv beta in *; match goal with
             | H : Good m ?k ?v |- Good m _ ?v => apply (good_mono m k); [lia|exact H]
             | H : GoodMap m ?k ?v |- GoodMap m _ ?v => apply (goodmap_mono m k); [lia|exact H]
             | H : GoodNamed m ?k ?v |- GoodNamed m _ ?v => apply (named_mono m k); [lia|exact H]
             | H : Forall (Good m ?k) ?v |- Forall (Good m _) ?v => apply (goods_mono m k); [lia|exact H]
             end.
  Theorem safe_evaluate_native f n bs src : Bindings m (native_sig f) n bs -> Safe n (Good m) (evaluate_native_func X call load_cached f bs src).
  Proof.
    intro B. unfold evaluate_native_func. cbv zeta. destruct f.
    - argb. argb. leaf.
    - eapply safe_bind; [eapply (safe_take _ _ _ B _ TAny); [reflexivity|lia]|]. intros. leaf.
    - argb. argb. leaf.
    - argb. leaf.
    - arglt TInt. intros k vs L [G T]. eapply (safe_bind m X _ _ k (fun _ _ => True)).
      + eapply safe_weaken; [apply (safe_to_each _ to_int TInt (fun _ => True)); [intros; now apply safe_to_int|exact G|exact T]|lia|auto].
      + intros k2 is L2 _. eapply (safe_bind m X _ _ k2 (fun _ _ => True)); [apply safe_pure; [|auto]|intros; leaf].
        intro E. right. cbn. eapply sum_panic. exact E.
    - argi. eapply (safe_bind m X _ _ _ (fun _ _ => True)); [apply safe_pure; [|auto]|intros; leaf].
      intro E. right. cbn. eapply i64_panic. exact E.
    - args. destruct (parse_i64 _); [leaf|apply safe_fail].
    - args. args. leaf.
    - args. leaf.
    - args. leaf.
    - args. leaf.
    - args. leaf.
    - args. leaf.
    - args. leaf.
    - args. args. leaf.
    - args. args. leaf.
    - args. leaf.
    - argi. args. destruct (_ <=? 0)%Z; [apply safe_fail|]. eapply safe_bind; [apply safe_unique_id|]. intros. leaf.
    - args. leaf.
    - args. apply safe_compile_regex.
    - argr. args. leaf.
    - argr. args. apply safe_ret. intros. destruct (x_captures _ _ _); [now apply good_captures|apply good_unit].
    - argr. args. apply safe_ret. intros. apply good_list. apply Forall_map, Forall_forall. intros. now apply good_captures.
    - argr. args. leaf.
    - argr. args. leaf.
    - argf. argl. argd. eapply safe_bind; [eapply (safe_take _ _ _ B _ TAny); [reflexivity|lia]|]. into [? _].
      eapply safe_bind; [apply (safe_bind_partial m X cover); up|]. intros k g L G. apply safe_ret. intros. up.
    - argf. leaf.
    - argh. leaf.
    - argh. leaf.
    - argh. leaf.
    - args. apply safe_parse_html.
    - argf. argl. eapply safe_bind; [apply safe_find_first; up|]. intros. leaf.
    - argf. argl. eapply safe_bind; [apply safe_find_first; up|]. intros. leaf.
    - eapply safe_bind; [eapply (safe_take _ _ _ B _ TAny); [reflexivity|lia]|]. intros. argl. leaf.
    - argi. argl. eapply (safe_bind m X _ _ _ (fun k out => Forall (Good m k) out)).
      + apply safe_pure; [intro E; right; cbn; eapply enumerate_panic; exact E|]. intros out k E L. eapply enumerate_good; [|exact E]. up.
      + intros k out L G. apply safe_ret. intros. apply good_list. up.
    - arg arg_opt_func. intros k g L G. argl. destruct g as [g|].
      + specialize (G g eq_refl). eapply safe_bind; [apply safe_filter_list; up|]. intros. apply safe_ret. intros. apply good_list. up.
      + apply safe_ret. intros. apply good_list. apply Forall_forall. intros v Hv. apply filter_In in Hv as [Hv _].
        match goal with F : Forall (Good m ?j) _ |- _ => rewrite Forall_forall in F; apply (good_mono m j); [lia|auto] end.
    - argf. argl. eapply safe_bind; [apply safe_find_first; up|]. intros k r L G. apply safe_ret. intros.
      destruct r; [specialize (G _ eq_refl); up|apply good_unit].
    - argl. apply safe_ret. intros. apply good_list. apply Forall_forall. intros v Hv. apply in_flat_map in Hv as (w & Hw & Hv).
      match goal with F : Forall (Good m ?j) _ |- _ => rewrite Forall_forall in F; specialize (F _ Hw); apply (good_mono m j); [lia|] end.
      destruct w; cbn in Hv; try (destruct Hv as [<-|[]]; assumption).
      match goal with F : Good m _ (VList _) |- _ => apply good_list in F; rewrite Forall_forall in F; auto end.
    - argi. argl. match goal with |- context [list_get (sr_from ?vs) ?i] => destruct (list_get_spec (sr_from vs) vs i (sr_from_view vs)) as (E1 & _ & E3 & _) end.
      eapply (safe_bind m X _ _ _ (fun k r => forall v, r = Some v -> Good m k v)).
      + apply safe_pure; [intro E; now elim E3|]. intros r k E L v ->. apply E1, in_element in E.
        match goal with F : Forall (Good m ?j) _ |- _ => rewrite Forall_forall in F; apply (good_mono m j); [lia|auto] end.
      + intros k [v|] L G; [|apply safe_fail]. specialize (G v eq_refl). apply safe_ret. intros. up.
    - argh. apply safe_ret. intros. apply good_list. apply Forall_map. eapply Forall_impl; [|apply (nodes_good m); eassumption]. intros h Hh. now apply good_of_html.
    - argl. leaf.
    - argh. arglt THtml. into [? ?]. eapply safe_bind; [apply (safe_to_each _ to_htmlM THtml (GoodHtml m)); [intros; now apply safe_to_html|eassumption|eassumption]|].
      intros. apply safe_ret. intros. apply good_of_html. now apply good_join.
    - argl. leaf.
    - argf. argl. eapply safe_bind; [apply safe_map_list; up|]. intros. apply safe_ret. intros. apply good_list. up.
    - argi. eapply safe_bind; [eapply (arg_opt _ _ _ B _ _ TInt); [reflexivity|lia|intros; now apply safe_to_int]|]. into _. argl.
      match goal with |- context [native_slice (sr_from ?vs) ?i ?j] => destruct (native_slice_spec (sr_from vs) vs i j (sr_from_view vs)) as (s' & out & E1 & E2 & E3) end.
      rewrite E1. cbn [obind]. rewrite E2. eapply (safe_bind m X _ _ _ (fun k r => Forall (Good m k) r)).
      + apply safe_pure; [discriminate|]. intros r k [= <-] L. apply Forall_forall. intros v Hv. apply (in_slice _ _ _ _ E3) in Hv.
        match goal with F : Forall (Good m ?j) _ |- _ => rewrite Forall_forall in F; apply (good_mono m j); [lia|auto] end.
      + intros. apply safe_ret. intros. apply good_list. up.
    - arg arg_opt_func. intros k g L G. argb. argl. eapply safe_bind; [apply safe_sorted; [intros g' E; specialize (G g' E); up|up]|].
      intros. apply safe_ret. intros. apply good_list. up.
    - argl. apply safe_ret. intros. apply good_list. apply Forall_rev. up.
    - args. argd. match goal with |- context [ngetm ?vs ?k] => destruct (ngetm vs k) eqn:E end; [|apply safe_fail]. apply safe_ret. intros.
      match goal with F : GoodNamed m ?j _ |- _ => apply (good_mono m j); [lia|]; eapply map_get; [exact (proj1 F)|exact E] end.
    - argd. leaf.
    - argd. apply safe_ret. intros. apply good_list. apply Forall_map, Forall_forall. intros kv Hkv. apply good_list. constructor; [apply good_str|constructor; [|constructor]].
      match goal with F : GoodNamed m ?j _ |- _ => destruct F as [[_ F] _]; rewrite Forall_forall in F; apply (good_mono m j); [lia|]; apply F; now apply in_map end.
    - argd. leaf.
    - argd. leaf.
    - argd. apply safe_ret. intros k L. apply good_dict. change (GoodNamed m k aa). up.
    - argd. apply safe_ret. intros. apply good_list. match goal with F : GoodNamed m ?j _ |- _ => destruct F as [[_ F] _] end. up.
    - args. destruct (x_list_dir X _) as [[errs files]|] eqn:Ed.
      + eapply safe_bind; [apply safe_report_all|]. into _. eapply safe_bind; [eapply safe_listed; intros; eauto|]. intros. leaf.
      + eapply safe_bind; [apply (safe_report m X _ _ (fun _ _ => True)); auto|]. intros. apply safe_fail.
    - args. destruct (x_read X _); [leaf|apply safe_fail].
    - args. argh. eapply safe_bind; [now apply safe_push_out|]. intros. leaf.
    - args. eapply safe_bind; [apply safe_fetch|]. intros. leaf.
    - args. eapply safe_bind; [apply safe_fetch|]. intros. apply safe_parse_html.
    - eapply safe_bind; [eapply (arg_opt _ _ _ B _ _ TStr); [reflexivity|lia|intros; now apply safe_to_str]|]. into _. argb. argi. args.
      eapply safe_bind; [apply safe_code|]. intros k h L [G1 G2]. apply safe_ret. intros. apply good_html. now split.
    - args. eapply safe_bind; [apply load_safe|]. intros k r L [G1 [G2 G3]]. apply safe_ret. intros. apply good_dict. split; [up|]. intro E. eapply Forall_impl; [|exact G3]. intros a [_ Ha]. now apply Ha.
    - args. eapply safe_bind; [apply load_safe|]. intros k r L [G1 [[G2 G3] G4]]. eapply safe_bind; [apply safe_set_vars; [eassumption|eapply Forall_impl; [|exact G4]; intros a [Ha _]; exact Ha]|]. intros. apply safe_ret. intros.
      now apply good_of_html.
    - args. apply safe_fail.
  Qed.
End Natives.
