(** Proofs for C76 and C77. *)
From Verif Require Import Base BaseFacts M_Text M_Names M_Html M_Render M_TagInfo S_Html S_Types P_Text P_Html S_Raw.
From Verif Require Import M_Path M_Diag M_Value M_State M_Native M_Eval S_Scope S_Safe S_Session S_SafeExample M_Std S_Lib P_Session P_Lib P_SafeProps.

Lemma textis_ind (P : html -> str -> Prop) :
  P HEmpty [] -> P HWhitespace [32%N] -> P HRawNewline [10%N] -> (forall s, P (HText s) s) ->
  (forall l ts, Forall2 TextIs l ts -> Forall2 P l ts -> P (HSeq l) (List.concat ts)) ->
  forall h t, TextIs h t -> P h t.
Proof.
  intros H1 H2 H3 H4 H5. fix F 3. intros h t [| | |s|l ts Hl]; [assumption|assumption|assumption|apply H4|].
  apply H5; [exact Hl|]. induction Hl as [|x y l ts Hx Hl IH]; constructor; [exact (F _ _ Hx)|exact IH].
Qed.

Lemma render_text h t : TextIs h t -> render true h = encode_entities t false.
Proof.
  revert h t. apply textis_ind; try reflexivity.
  intros l ts _ H. cbn [render]. induction H as [|x y l ts Hx _ IH]; [reflexivity|].
  cbn [flat_map List.concat]. unfold encode_entities. rewrite flat_map_app. fold (encode_entities y false).
  rewrite Hx. f_equal. exact IH.
Qed.
Lemma encode_no_lt t q c : In c (encode_entities t q) -> c <> 60%N.
Proof. intro H. apply (encode_entities_safe _ _ _ H). Qed.
Lemma encode_same t : encode_entities t false = t <-> forall c, In c t -> ~ In c [60; 62; 38]%N.
Proof.
  split.
  - intros E c Hc [<- | [<- | [<- | []]]]; revert E.
    all: assert (Hlen : forall s, length s <= length (encode_entities s false)) by
      (induction s as [|x s IH]; [auto|]; unfold encode_entities in *; cbn [flat_map]; rewrite app_length; unfold encode_char at 1;
       repeat match goal with |- context[if ?b then _ else _] => destruct b end; cbn [length lit] ; cbn; lia).
    all: apply in_split in Hc as (a & b & ->); intro E; apply (f_equal (@length _)) in E;
      unfold encode_entities in E; rewrite flat_map_app in E; cbn [flat_map] in E; fold (encode_entities a false) in E;
      fold (encode_entities b false) in E; rewrite !app_length in E; cbn in E; specialize (Hlen a) as Ha; specialize (Hlen b) as Hb;
      lia.
  - induction t as [|c t IH]; intro H; [reflexivity|]. unfold encode_entities in *. cbn [flat_map]. rewrite IH; [|intros d Hd; apply H; now right].
    unfold encode_char. specialize (H c (or_introl eq_refl)). cbn in H.
    destruct (N.eqb_spec c 60) as [E|_]; [exfalso; apply H; auto|]. destruct (N.eqb_spec c 62) as [E|_]; [exfalso; apply H; auto|].
    destruct (N.eqb_spec c 38) as [E|_]; [exfalso; apply H; auto|]. reflexivity.
Qed.

Lemma raw_content n content rest : In n raw_text_elements -> (forall c, In c content -> c <> 60%N) ->
  RawContent n (content ++ lit "</" ++ n ++ lit ">" ++ rest) content rest.
Proof.
  intros _ Hc. split; [reflexivity|]. intros before t' E (m & c & more & -> & _).
  destruct (Nat.le_gt_cases (length content) (length before)) as [H|H]; [exact H|exfalso].
  assert (E2 : nth_error (content ++ lit "</" ++ n ++ lit ">" ++ rest) (length before) = Some 60%N).
  { rewrite E. rewrite nth_error_app2 by lia. now rewrite Nat.sub_diag. }
  rewrite nth_error_app1 in E2 by exact H. apply nth_error_In in E2. now apply Hc in E2.
Qed.

(** The text of attributes *)
Lemma attrs_no_angle a c : Forall (fun kv : str * option str => PlainName (fst kv)) a -> In c (flat_map render_attr a) -> c <> 60%N /\ c <> 62%N.
Proof.
  intros Ha. rewrite in_flat_map. intros ([k v] & Hi & Hc). rewrite Forall_forall in Ha. specialize (Ha _ Hi) as [_ Hk]. cbn [fst] in Hk.
  unfold render_attr in Hc. cbn [fst snd] in Hc. apply in_app_or in Hc as [Hc|Hc]; [destruct Hc as [<- | []]; split; discriminate|].
  apply in_app_or in Hc as [Hc|Hc].
  - unfold attr_display in Hc. apply in_map_iff in Hc as (d & <- & Hd). rewrite Forall_forall in Hk. specialize (Hk d Hd).
    destruct (d =? 95)%N; [split; discriminate|]. split; intros ->; apply Hk; cbn; tauto.
  - destruct v as [v|]; [|destruct Hc]. apply in_app_or in Hc as [Hc|Hc]; [destruct Hc as [<- | [<- | []]]; split; discriminate|].
    apply in_app_or in Hc as [Hc|Hc]; [|destruct Hc as [<- | []]; split; discriminate].
    apply encode_entities_safe in Hc. tauto.
Qed.

Lemma raw_contained n a c t rest : PlainDoc (HTag n a c) -> In n raw_text_elements -> TextIs c t ->
  exists start content, render true (HTag n a c) = lit "<" ++ n ++ start ++ lit ">" ++ content ++ lit "</" ++ n ++ lit ">" /\
    (forall x, In x start -> x <> 60%N /\ x <> 62%N) /\
    RawContent n (content ++ lit "</" ++ n ++ lit ">" ++ rest) content rest /\
    (content = t <-> forall x, In x t -> ~ In x [60; 62; 38]%N).
Proof.
  intros HP Hn Ht. exists (flat_map render_attr a), (encode_entities t false). inversion HP; subst.
  split; [|split; [|split]].
  - cbn [render negb]. rewrite (render_text _ _ Ht).
    assert (Hs : is_self_closing n = false).
    { clear -Hn. repeat (destruct Hn as [<- | Hn]; [reflexivity|]). destruct Hn. }
    rewrite Hs. cbn [negb]. rewrite <- !app_assoc. reflexivity.
  - intros x Hx. eapply attrs_no_angle; eauto.
  - apply raw_content; [exact Hn|]. intros x Hx. now apply encode_no_lt in Hx.
  - apply encode_same.
Qed.

Lemma shown_nodash k : NoDash k -> forall k', NoDash k' -> shown k = shown k' -> k = k'.
Proof.
  revert k. induction k as [|c k IH]; intros Hk [|c' k'] Hk' E; try discriminate; [reflexivity|].
  cbn in E. injection E as E1 E2. assert (c = c').
  { destruct (N.eqb_spec c 95), (N.eqb_spec c' 95); subst; auto; exfalso; [apply Hk'|apply Hk]; left; congruence. }
  subst. f_equal. apply IH; auto; intro Hi; [apply Hk|apply Hk']; now right.
Qed.
Lemma shown_distinct (a : nmap (option str)) : NoDup (List.map fst a) -> Forall (fun kv => NoDash (fst kv)) a ->
  NoDup (List.map fst (List.map (fun kv => (shown (fst kv), snd kv)) a)).
Proof.
  intros H Hd. rewrite map_map. cbn [fst]. induction a as [|[k v] a IH]; cbn; [constructor|].
  cbn in H. inversion H as [|? ? Hn H']; subst. inversion Hd as [|? ? Hk Hd']; subst. cbn in Hk. constructor; [|now apply IH].
  rewrite in_map_iff. intros ([k' v'] & E & Hi). cbn in E. rewrite Forall_forall in Hd'. specialize (Hd' _ Hi). cbn in Hd'.
  apply (shown_nodash k' Hd' k Hk) in E. subst. apply Hn. apply in_map_iff. now exists (k, v').
Qed.
Lemma doc_once h : DistinctAttrs h -> AttrsNoDash h -> Forall Once (doc h).
Proof.
  induction h as [|n a c IH|l IH|s| |] using html_ind'; intros HD HN; cbn [doc]; try (repeat constructor; fail).
  - inversion HD; subst; try contradiction. destruct HN as [HN HC]. constructor; [constructor; [now apply shown_distinct|now apply IH]|constructor].
  - inversion HD; subst; try contradiction. induction IH as [|x l Hx _ IHl]; [constructor|]. cbn [flat_map]. destruct HN as [HN1 HN2].
    match goal with H : Forall DistinctAttrs _ |- _ => inversion H; subst end.
    apply Forall_app. split; [now apply Hx|]. apply IHl; try assumption. now constructor.
  - apply Forall_forall. intros x Hx. apply in_map_iff in Hx as (c & <- & _). constructor.
Qed.

Lemma document_distinct X fuel path text s h exports s' : Session Plain s -> Environment Plain X ->
  compile X fuel path text s = Ok (h, exports) s' -> DistinctAttrs h.
Proof.
  intros S E H. pose proof (use_compile Plain X E fuel path text s (session_sound _ _ S) I (or_introl I)) as P. rewrite H in P.
  destruct P as (_ & _ & [[_ P] _] & _). exact P.
Qed.

Definition ex_once : str := lit "<b data_x=`1` id=`x`>a</b>d".
Definition ex_once_out : html := HTag (lit "p") [] (HSeq [HTag (lit "b") [(lit "data_x", Some (lit "1")); (lit "id", Some (lit "x"))] (HText (lit "a")); HText (lit "d")]).
Lemma run_once : out_of (run ex_once) = Some ex_once_out. Proof. vm_compute. reflexivity. Qed.
Lemma once_example : exists s ex s', Session Plain s /\ Environment Plain ex_library_X /\
  compile ex_library_X 60 (lit "<string>") ex_once s = Ok (ex_once_out, ex) s' /\ AttrsNoDash ex_once_out.
Proof.
  destruct ex_context as [s H]. destruct (out_of_some (compile ex_library_X 60 (lit "<string>") ex_once s) ex_once_out) as (ex & s' & K).
  { rewrite <- (run_in _ _ H). exact run_once. }
  assert (E : Environment Plain ex_library_X) by (intro t; constructor; repeat constructor).
  exists s, ex, s'. split; [now apply ex_session|]. split; [exact E|]. split; [exact K|].
  cbn. repeat split; repeat constructor; intro F; cbn in F; intuition discriminate.
Qed.
