(** Proofs about sound states: the HTML made by the highlighter and from parsed HTML (C47, C57). *)
From Verif Require Import Base BaseFacts M_Names M_TagInfo M_Html S_Html P_Html M_Int M_Token M_Types M_Diag M_SourceFile M_Highlight M_Ast M_Value
  M_State M_HtmlParse M_Native S_Types P_Types P_Coerce S_Scope S_Call P_NativeCalls S_Safe P_SafeBase.

Definition Gives {A} (P : A -> Prop) (o : outcome A) : Prop := forall a, o = Ret a -> P a.
Lemma gives_ret A (P : A -> Prop) a : P a -> Gives P (Ret a).
Proof. intros H b E. now injection E as <-. Qed.
Lemma gives_panic A (P : A -> Prop) : Gives P Panic. Proof. intros b E. discriminate E. Qed.
Lemma gives_bind A B (Q : A -> Prop) (P : B -> Prop) o f : Gives Q o -> (forall a, Q a -> Gives P (f a)) -> Gives P (obind o f).
Proof. intros H1 H2. destruct o as [a| |]; cbn; [apply H2, H1; reflexivity| |]; intros b E; discriminate E. Qed.
Lemma gives_any A (o : outcome A) : Gives (fun _ => True) o. Proof. now intros a _. Qed.

Section Html.
Context {m : mode}.
Notation GoodHtml := (GoodHtml m).
(** ** Highlighting *)
Lemma good_text s : GoodHtml (html_text s). Proof. apply gh_text. Qed.
Lemma good_make_token k s n : GoodHtml (make_token k s n).
Proof.
  assert (D1 : forall n1 v1, NoDup (List.map fst [(n1, v1) : str * option str])) by (intros; cbn; repeat constructor; intros []).
  assert (D2 : forall n1 v1 n2 v2, n1 <> n2 -> NoDup (List.map fst [(n1, v1) : str * option str; (n2, v2)])).
  { intros. cbn. constructor; [intros [K|[]]; congruence|]. constructor; [intros []|constructor]. }
  assert (E1 : n_href <> n_class) by (vm_compute; discriminate). assert (E2 : n_class <> n_data_paren_no) by (vm_compute; discriminate).
  destruct k; cbn [make_token]; try apply good_text; apply gh_static; try apply good_text; try (destruct in_comment); try destruct (0 <? n)%N; try apply D1;
    try reflexivity; now apply D2.
Qed.
Definition GoodLine (l : lh) : Prop := Forall GoodHtml (lh_parts l).
Lemma gives_close l : GoodLine l -> Gives GoodLine (close_part l).
Proof.
  intro H. unfold close_part. destruct (lh_kind l); [|now apply gives_ret]. eapply gives_bind; [apply gives_any|]. intros s _. apply gives_ret.
  unfold GoodLine. cbn. apply Forall_app. split; [exact H|]. constructor; [apply good_make_token|constructor].
Qed.
Lemma gives_other a b k l : GoodLine l -> Gives GoodLine (push_other a b k l).
Proof.
  intro H. unfold push_other. destruct (b <=? a); [now apply gives_ret|].
  match goal with |- Gives _ (if ?c then _ else _) => destruct c end; [now apply gives_ret|].
  eapply gives_bind; [now apply gives_close|]. intros l' H'. now apply gives_ret.
Qed.
Lemma gives_paren a b k n l : GoodLine l -> Gives GoodLine (push_with_paren_no a b k n l).
Proof.
  intro H. unfold push_with_paren_no. eapply gives_bind; [now apply gives_close|]. intros l' H'. eapply gives_bind; [apply gives_any|]. intros s _.
  apply gives_ret. unfold GoodLine. cbn. apply Forall_app. split; [exact H'|]. constructor; [apply good_make_token|constructor].
Qed.
Lemma gives_urls us : forall start cur b k uk l, GoodLine l -> Gives GoodLine (push_urls us start cur b k uk l).
Proof.
  induction us as [|[x y] us IH]; intros start cur b k uk l H; cbn [push_urls]; [now apply gives_other|].
  eapply gives_bind; [now apply gives_other|]. intros l1 H1. eapply gives_bind; [now apply gives_other|]. intros l2 H2.
  eapply gives_bind; [now apply gives_close|]. intros l3 H3. now apply IH.
Qed.
Lemma gives_push a b k l : GoodLine l -> Gives GoodLine (lh_push a b k l).
Proof.
  intro H. unfold lh_push. eapply gives_bind; [apply gives_any|]. intros s _. destruct k; try now apply gives_other; try now apply gives_urls.
  all: try now apply gives_urls.
  - eapply gives_bind; [apply gives_any|]. intros p _. cbv zeta. now apply gives_paren.
  - destruct (lh_stack l) as [|[r n] st]; [now apply gives_other|]. destruct (str_eqb r s); [|now apply gives_other].
    eapply gives_bind; [now apply gives_paren|]. intros l' H'. now apply gives_ret.
Qed.
Lemma gives_take l : GoodLine l -> Gives (fun r => GoodHtml (fst r) /\ GoodLine (snd r)) (take_line l).
Proof.
  intro H. unfold take_line. eapply gives_bind; [now apply gives_close|]. intros l' H'. apply gives_ret. split; [now apply gh_from_iter|constructor].
Qed.
Lemma gives_parts ps : forall cur c k l out, GoodLine l -> Forall GoodHtml out ->
  Gives (fun r => GoodLine (fst r) /\ Forall GoodHtml (snd r)) (push_parts ps cur c k l out).
Proof.
  induction ps as [|p ps IH]; intros cur c k l out H F; cbn [push_parts]; [now apply gives_ret|].
  apply (gives_bind _ _ (fun r => GoodLine (fst r) /\ Forall GoodHtml (snd r))).
  - destruct c; [|now apply gives_ret]. eapply gives_bind; [apply gives_any|]. intros s _. destruct (str_eqb s [10%N]); [|apply gives_panic].
    eapply gives_bind; [now apply gives_take|]. intros r [H1 H2]. apply gives_ret. split; [exact H2|]. apply Forall_app. split; [exact F|now constructor].
  - intros [l1 out1] [H1 H2]. cbn in H1, H2. eapply gives_bind; [now apply gives_push|]. intros l2 H3. now apply IH.
Qed.
Lemma gives_tokens ts : forall a b l out, GoodLine l -> Forall GoodHtml out ->
  Gives (fun r => GoodLine (fst r) /\ Forall GoodHtml (snd r)) (highlight_tokens ts a b l out).
Proof.
  induction ts as [|t ts IH]; intros a b l out H F; cbn [highlight_tokens]; [now apply gives_ret|].
  destruct (papyri_kind (tk_kind t) a b) as [k d]. eapply gives_bind; [now apply gives_parts|]. intros [l1 out1] [H1 H2]. now apply IH.
Qed.
Lemma gives_ranges rs : forall l, GoodLine l -> Gives GoodLine (push_ranges rs l).
Proof.
  induction rs as [|[[a b] k] rs IH]; intros l H; cbn [push_ranges]; [now apply gives_ret|]. destruct (b <=? a); [now apply IH|].
  eapply gives_bind; [now apply gives_push|]. exact IH.
Qed.
Lemma gives_lines ls : forall l, GoodLine l -> Gives (Forall GoodHtml) (highlight_lines ls l).
Proof.
  induction ls as [|[line rs] ls IH]; intros l H; cbn [highlight_lines]; [apply gives_ret; constructor|]. cbv zeta.
  destruct rs as [rs|].
  - eapply gives_bind; [now apply gives_ranges|]. intros l1 H1. eapply gives_bind; [now apply gives_take|]. intros r [H2 H3].
    eapply gives_bind; [now apply IH|]. intros out H4. apply gives_ret. now constructor.
  - eapply gives_bind; [now apply IH|]. intros out H4. apply gives_ret. constructor; [apply good_text|exact H4].
Qed.
Lemma good_no_highlighting src : Forall GoodHtml (no_highlighting src).
Proof. unfold no_highlighting. apply Forall_map, Forall_forall. intros. apply good_text. Qed.
Lemma gives_highlight syn src lang : Gives (fun r => Forall GoodHtml (fst r)) (syntax_highlight syn src lang).
Proof.
  unfold syntax_highlight. destruct (str_eqb lang (lit "none")); [apply gives_ret, good_no_highlighting|].
  destruct (str_eqb lang (lit "papyri")).
  - eapply (gives_bind _ _ (Forall GoodHtml)); [|intros ls H; now apply gives_ret]. unfold syntax_highlight_papyri. cbv zeta.
    eapply gives_bind; [apply gives_any|]. intros r _. eapply gives_bind; [apply gives_tokens; constructor|]. intros [l out] [H1 H2]. cbn in H1, H2.
    eapply gives_bind; [now apply gives_take|]. intros r' [H3 H4]. apply gives_ret. apply Forall_app. split; [exact H2|now constructor].
  - destruct (syn lang _); [|apply gives_ret, good_no_highlighting]. eapply (gives_bind _ _ (Forall GoodHtml)); [apply gives_lines; constructor|].
    intros ls H. now apply gives_ret.
Qed.
Lemma gives_enumerate c ls z : Forall GoodHtml ls -> Gives GoodHtml (enumerate_lines c ls z).
Proof.
  intro F. unfold enumerate_lines. eapply (gives_bind _ _ (Forall GoodHtml)); [|intros out H; apply gives_ret; now apply gh_from_iter].
  generalize 0. induction F as [|x ls H F IH]; intro i; cbn [enumerate_loop]; [apply gives_ret; constructor|].
  eapply gives_bind; [apply gives_any|]. intros no _. eapply gives_bind; [apply IH|]. intros out Ho. apply gives_ret. constructor.
  - apply gh_static; [|reflexivity|reflexivity|exact H]. cbn. repeat constructor; cbn; [intros [K|[]]; vm_compute in K; discriminate|intros []].
  - constructor; [apply gh_newline|exact Ho].
Qed.
(** ** Parsed HTML *)
Lemma dom_ind' (P : dom -> Prop) : (forall ds, Forall P ds -> P (DDocument ds)) -> P DDoctype -> (forall s, P (DText s)) -> P DComment ->
  (forall n a ds, Forall P ds -> P (DElement n a ds)) -> P DProcessingInstruction -> forall d, P d.
Proof.
  intros H1 H2 H3 H4 H5 H6. fix IH 1. intros [ds| |s| |n a ds|].
  - apply H1. induction ds as [|d ds J]; constructor; [apply IH|exact J].
  - exact H2.
  - apply H3.
  - exact H4.
  - apply H5. induction ds as [|d ds J]; constructor; [apply IH|exact J].
  - exact H6.
Qed.
Lemma gives_node low d : (m = Plain -> PlainDom low d) -> Gives GoodHtml (node_to_html low d).
Proof.
  induction d using dom_ind'; intro P; cbn [node_to_html]; try (apply gives_ret; apply gh_empty).
  - assert (F : m = Plain -> Forall (PlainDom low) ds) by (intro E; specialize (P E); now inversion P). clear P.
    eapply (gives_bind _ _ (Forall GoodHtml)); [|intros hs Hs; apply gives_ret; now apply gh_from_iter].
    induction H as [|d ds H1 H2 IH]; [apply gives_ret; constructor|]. eapply gives_bind; [apply H1; intro E; specialize (F E); now inversion F|]. intros h Hh.
    eapply gives_bind; [apply IH; intro E; specialize (F E); now inversion F|]. intros hs Hs. apply gives_ret. now constructor.
  - apply gives_ret, good_text.
  - assert (F : m = Plain -> Forall (PlainDom low) ds) by (intro E; specialize (P E); now inversion P).
    eapply (gives_bind _ _ (fun hs => Forall GoodHtml hs /\ (ds = [] -> hs = []))); [|intros hs [Hs He]; apply gives_ret; apply gh_tag; [apply nfrom_nodup| |now apply gh_from_iter]].
    + clear P. induction H as [|d ds H1 H2 IH]; [apply gives_ret; split; [constructor|auto]|]. eapply gives_bind; [apply H1; intro E; specialize (F E); now inversion F|]. intros h Hh.
      eapply gives_bind; [apply IH; intro E; specialize (F E); now inversion F|]. intros hs [Hs _]. apply gives_ret. split; [now constructor|discriminate].
    + intro E. specialize (P E). inversion P as [| | | |? ? ? Pn Pa Pv Pd|]; subst. split; [exact Pn|]. split.
      * apply (plain_from Plain); [|reflexivity]. intros _. rewrite map_map. cbn. now apply Forall_map.
      * intro V. now rewrite (He (Pv V)).
  - apply gives_panic.
Qed.
Lemma node_panic low d : node_to_html low d = Panic -> has_instruction d = true.
Proof.
  induction d using dom_ind'; cbn [node_to_html has_instruction]; try discriminate; auto.
  - intro E. induction H as [|d ds H1 H2 IH]; [discriminate E|]. cbn [existsb]. apply orb_true_iff.
    destruct (node_to_html low d) as [h| |]; cbn [obind] in E; [|left; now apply H1|discriminate].
    right. apply IH. match type of E with obind (obind ?o _) _ = _ => destruct o end; cbn in E |- *; congruence.
  - intro E. induction H as [|d ds H1 H2 IH]; [discriminate E|]. cbn [existsb]. apply orb_true_iff.
    destruct (node_to_html low d) as [h| |]; cbn [obind] in E; [|left; now apply H1|discriminate].
    right. apply IH. match type of E with obind (obind ?o _) _ = _ => destruct o end; cbn in E |- *; congruence.
Qed.
Lemma good_join sep l : GoodHtml sep -> Forall GoodHtml l -> GoodHtml (join_html sep l).
Proof.
  intros Hs Hl. unfold join_html. destruct l as [|x l]; [apply gh_empty|]. destruct (html_is_empty sep); apply gh_from_iter; [exact Hl|].
  remember (x :: l) as k. clear Heqk x l. induction Hl as [|x k Hx Hk IH]; [constructor|]. cbn [intersperse]. destruct k; [now constructor|].
  constructor; [exact Hx|]. constructor; [exact Hs|exact IH].
Qed.
End Html.
