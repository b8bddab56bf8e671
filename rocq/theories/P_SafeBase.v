(** Proofs about sound states: values, and the basic operations of the compiler (C47, C57). *)
From Verif Require Import Base M_Text BaseFacts M_Names M_TagInfo M_Html S_Html P_Html M_Path M_TextSubs M_Token M_Types M_Diag M_Ast M_Value
  M_State M_HtmlParse M_Native S_Types P_Types P_Coerce S_Scope P_Scope S_Call P_Call P_Match S_Safe.

Lemma ninsert_in T (l : nmap T) k v x : In x (ninsert l k v) -> x = (k, v) \/ In x l.
Proof.
  induction l as [|[k' v'] l IH]; cbn; [intuition congruence|]. destruct (str_eqb k k') eqn:E; cbn.
  - apply str_eqb_eq in E. subst. intuition congruence.
  - intuition.
Qed.
Lemma nfrom_nodup T (l : list (str * T)) : NoDup (nkeys (nfrom l)).
Proof.
  unfold nfrom. assert (H : forall m0 : nmap T, NoDup (nkeys m0) -> NoDup (nkeys (fold_left (fun m1 kv => ninsert m1 (fst kv) (snd kv)) l m0))).
  { induction l as [|[k v] l IH]; intros m0 G; [exact G|]. cbn. apply IH. now apply ninsert_nodup. }
  apply H. constructor.
Qed.

Lemma lax_or_strict m : Loose m \/ ~ Loose m.
Proof. destruct m; cbn; tauto. Qed.

(** ** Plain documents *)
Lemma plain_text s : PlainDoc (html_text s).
Proof. unfold html_text. repeat match goal with |- context [match ?x with _ => _ end] => destruct x end; constructor. Qed.
Definition PlainSb (b : seq_builder) : Prop := Forall PlainDoc (sb_children b) /\ Forall PlainDoc (sb_text b).
Lemma plain_close b : PlainSb b -> PlainSb (sb_close_text b).
Proof.
  intros [A B]. unfold sb_close_text. destruct (sb_text b) as [|x [|y l]] eqn:E; [split; [exact A|now rewrite E]| |]; (split; [|constructor]); cbn;
    (apply Forall_app; split; [exact A|]); constructor; try constructor; [now inversion B|apply plain_text].
Qed.
Lemma plain_push h : PlainDoc h -> forall b, PlainSb b -> PlainSb (sb_push h b).
Proof.
  induction h using html_ind'; intros P b Hb; try (destruct Hb as [A B]; split; [exact A|]; cbn; apply Forall_app; split; [exact B|]; now repeat constructor).
  - exact Hb.
  - cbn. destruct (plain_close b Hb) as [A B]. split; [|exact B]. cbn. apply Forall_app. split; [exact A|]. now constructor.
  - rewrite sb_push_seq. inversion P as [| | | | |? F]; subst. revert b Hb. induction H as [|x l Hx H IH]; intros b Hb; [exact Hb|]. inversion F; subst. cbn. apply IH; [now constructor|assumption|]. now apply Hx.
Qed.
Lemma plain_from_iter l : Forall PlainDoc l -> PlainDoc (from_iter l).
Proof.
  intro F. unfold from_iter. assert (H : PlainSb (fold_left (fun b h => sb_push h b) l sb_new)).
  { assert (K : forall b, PlainSb b -> PlainSb (fold_left (fun b h => sb_push h b) l b)); [|apply K; split; constructor].
    induction F as [|x l Hx F IH]; intros b Hb; [exact Hb|]. cbn. apply IH. now apply plain_push. }
  unfold sb_build. destruct (plain_close _ H) as [A _]. destruct (sb_children _) as [|x [|y r]]; [constructor|now inversion A|now constructor].
Qed.
Lemma ident_plain n : is_identifier n = true -> PlainName n.
Proof.
  assert (S : forall c, is_ident_start c = true -> is_ident_cont c = true).
  { intros c. unfold is_ident_start, is_ident_cont, is_ascii_alphanumeric. rewrite !orb_true_iff. tauto. }
  assert (C : forall c, is_ident_cont c = true -> ~ In c [32; 9; 10; 12; 13; 34; 39; 47; 60; 61; 62]%N).
  { intros c H K. repeat (destruct K as [<-|K]; [vm_compute in H; discriminate H|]). destruct K. }
  destruct n as [|c n]; [discriminate|]. cbn [is_identifier]. rewrite andb_true_iff, forallb_forall. intros [A B]. split; [discriminate|].
  constructor; [apply C, S, A|]. apply Forall_forall. intros d Hd. apply C, B, Hd.
Qed.
Lemma plain_ascii n : is_plain n = true -> PlainName n.
Proof.
  unfold is_plain. rewrite andb_true_iff, negb_true_iff, forallb_forall. intros [A B]. split.
  - intros ->. discriminate A.
  - apply Forall_forall. intros c Hc Hi. specialize (B c Hc). apply negb_true_iff in B.
    assert (existsb (N.eqb c) [32; 9; 10; 12; 13; 34; 39; 47; 60; 61; 62]%N = true); [|congruence]. apply existsb_exists. exists c. split; [exact Hi|apply N.eqb_refl].
Qed.
Lemma not_void n : mem n void_elements = false -> ~ Void n.
Proof. intros H V. apply mem_In in V. congruence. Qed.

(** ** Good HTML *)
Section GoodHtml.
  Variable m : mode.
  Lemma gh_empty : GoodHtml m HEmpty. Proof. split; [apply wf_empty|intros _; constructor]. Qed.
  Lemma gh_white : GoodHtml m HWhitespace. Proof. split; [split; constructor; exact I|intros _; constructor]. Qed.
  Lemma gh_newline : GoodHtml m HRawNewline. Proof. split; [split; constructor; exact I|intros _; constructor]. Qed.
  Lemma gh_text s : GoodHtml m (html_text s).
  Proof.
    split; [apply wf_html_text|]. intros _. apply plain_text.
  Qed.
  Lemma gh_html_tag n c : (m = Plain -> is_plain n = true /\ mem n void_elements = false) -> GoodHtml m c -> GoodHtml m (html_tag n c).
  Proof.
    intros P [H1 H2]. split; [now apply wf_html_tag|]. intro E. destruct (P E). constructor; auto; [now apply plain_ascii|]. intro V. now apply not_void in V.
  Qed.
  Lemma gh_from_iter l : Forall (GoodHtml m) l -> GoodHtml m (from_iter l).
  Proof.
    intro F. split.
    - apply wf_from_iter. eapply Forall_impl; [|exact F]. now intros h [H _].
    - intro E. apply plain_from_iter. eapply Forall_impl; [|exact F]. intros h [_ H]. now apply H.
  Qed.
  Lemma gh_tag n a c : NoDup (List.map fst a) -> (m = Plain -> PlainName n /\ Forall PlainName (nkeys a) /\ (Void n -> c = HEmpty)) -> GoodHtml m c -> GoodHtml m (HTag n a c).
  Proof.
    intros D P [H1 H2]. split; [now apply wf_tag|]. intro E. destruct (P E) as (A & B & C). constructor; auto.
    unfold nkeys in B. now rewrite Forall_map in B.
  Qed.
  Lemma gh_static n a c : NoDup (List.map fst a) -> forallb is_plain (n :: nkeys a) = true -> mem n void_elements = false -> GoodHtml m c -> GoodHtml m (HTag n a c).
  Proof.
    intros D P V H. cbn [forallb] in P. apply andb_true_iff in P as [P1 P2]. apply gh_tag; [exact D| |exact H]. intros _. split; [now apply plain_ascii|]. split.
    - rewrite forallb_forall in P2. apply Forall_forall. intros x Hx. apply plain_ascii. now apply P2.
    - intro K. now apply not_void in K.
  Qed.
End GoodHtml.

(** ** Good values *)
Section GoodValues.
  Variable m : mode.
  Notation GoodHtml := (GoodHtml m). Notation Good := (Good m). Notation GoodFunc := (GoodFunc m). Notation GoodMap := (GoodMap m).

  Lemma goodfunc_mono n k : n <= k -> forall f, GoodFunc n f -> GoodFunc k f.
  Proof.
    intro L. fix IH 1. intros [a c sig b|g a sig|f p]; cbn.
    - intros (A & B & C). split; [lia|]. now split.
    - auto.
    - intros [A B]. split; [now apply IH|exact B].
  Qed.
  Lemma good_mono n k v : n <= k -> Good n v -> Good k v.
  Proof.
    intros L G w W. specialize (G w W). destruct w; cbn in *; auto. now apply (goodfunc_mono n).
  Qed.
  Lemma goods_mono n k vs : n <= k -> Forall (Good n) vs -> Forall (Good k) vs.
  Proof. intros L. apply Forall_impl. intros v. now apply good_mono. Qed.
  Lemma goodmap_mono n k vs : n <= k -> GoodMap n vs -> GoodMap k vs.
  Proof. intros L [A B]. split; [exact A|now apply (goods_mono n)]. Qed.

  Lemma good_bool n b : Good n (VBool b). Proof. intros w W. inversion W. exact I. Qed.
  Lemma good_int n b : Good n (VInt b). Proof. intros w W. inversion W. exact I. Qed.
  Lemma good_str n b : Good n (VStr b). Proof. intros w W. inversion W. exact I. Qed.
  Lemma good_regex n b : Good n (VRegex b) <-> GoodRegex m b.
  Proof. split; [intro H; exact (H _ (W_here _))|]. intros H w W. inversion W; subst. exact H. Qed.
  Lemma good_html n h : Good n (VHtml h) <-> GoodHtml h /\ ~ IsText h.
  Proof. split; [intro G; exact (G _ (W_here _))|]. intros G w W. inversion W. exact G. Qed.
  Lemma good_list n vs : Good n (VList vs) <-> Forall (Good n) vs.
  Proof.
    rewrite Forall_forall. split.
    - intros G x Hx w W. apply G. now apply (W_list _ x).
    - intros G w W. inversion W; subst; [exact I|]. eapply G; eauto.
  Qed.
  Lemma good_dict n vs : Good n (VDict vs) <-> GoodMap n vs /\ PlainKeys m vs.
  Proof.
    unfold GoodMap. rewrite Forall_forall. split.
    - intros G. destruct (G _ (W_here _)) as [A B]. split; [|exact B]. split; [exact A|]. intros x Hx w W. apply G. now apply (W_dict _ x).
    - intros [[D G] P] w W. inversion W; subst; [split; assumption|]. eapply G; eauto.
  Qed.
  Lemma good_func n f : Good n (VFunc f) <-> GoodFunc n f /\ Forall (Good n) (held f).
  Proof.
    rewrite Forall_forall. split.
    - intros G. split; [exact (G _ (W_here _))|]. intros x Hx w W. apply G. now apply (W_func _ x).
    - intros [D G] w W. inversion W; subst; [exact D|]. eapply G; eauto.
  Qed.
  Lemma good_unit n : Good n UNIT.
  Proof. apply good_html. split; [apply gh_empty|intros []]. Qed.
  Lemma good_of_html n h : GoodHtml h -> Good n (of_html h).
  Proof.
    intro G. destruct h; try apply good_str; apply good_html; split; try exact G; intros [].
  Qed.
  Lemma good_to_html n v h : Good n v -> to_html v = Some h -> GoodHtml h.
  Proof.
    destruct v; cbn; try discriminate; intros G [= <-]; [apply gh_text|]. apply good_html in G. tauto.
  Qed.
  Lemma good_wf n v : Good n v -> WfValue v.
  Proof.
    induction v using value_ind'; intros G; try (constructor; fail).
    - apply good_html in G as [[[A B] _] C]. now constructor.
    - apply good_list in G. constructor. rewrite Forall_forall in *. auto.
    - apply good_dict in G as [[A B] _]. unfold nvalues in B. rewrite Forall_map in B. constructor; [exact A|].
      rewrite Forall_forall in *. auto.
  Qed.
  Lemma gh_compile_value n v : Good n v -> GoodHtml (compile_value v).
  Proof.
    induction v using value_ind'; intros G; cbn [compile_value]; try apply gh_text;
      try (apply gh_html_tag; [now split|apply gh_text]).
    - apply good_html in G. tauto.
    - apply good_list in G. apply gh_html_tag; [now split|]. apply gh_from_iter. rewrite Forall_map, Forall_forall in *.
      intros v I. apply gh_html_tag; [now split|]. auto.
    - apply good_dict in G as [[_ G] _]. unfold nvalues in G. apply gh_static; [repeat constructor; intros []|reflexivity|reflexivity|].
      apply gh_from_iter. rewrite Forall_map, Forall_forall in *. intros v I. apply gh_html_tag; [now split|]. apply gh_from_iter.
      repeat (apply Forall_cons; [apply gh_html_tag; [now split|]|]); [apply gh_text| |constructor].
      apply H; [exact I|]. now apply G.
  Qed.
  Lemma map_get n vs k v : GoodMap n vs -> ngetm vs k = Some v -> Good n v.
  Proof.
    intros [_ F] E. rewrite Forall_forall in F. apply F. apply ngetm_In in E. apply in_map_iff. now exists (k, v).
  Qed.
  Lemma map_nil n : GoodMap n [].
  Proof. split; constructor. Qed.

  (** Coercion *)
  Definition good_at (n : nat) (t : ty) : Prop := forall v v', Good n v -> coerce_base t v = inl v' -> Good n v'.
  Lemma coerce_opt_good n t : (forall t', t' = t \/ t = TOptional t' -> good_at n t') ->
    forall v v', Good n v -> coerce t v = inl v' -> Good n v'.
  Proof.
    intros H v v' W C. unfold coerce, coerce_opt in C. destruct t; try (eapply H; eauto; fail).
    destruct (is_unit v) eqn:U; [injection C as <-; apply good_unit|]. eapply H; eauto.
  Qed.
  Lemma coerce_good_n n k : forall t, ty_size t <= k -> good_at n t.
  Proof.
    induction k as [|k IH]; intros t Sz; [destruct (ty_size_pos t); lia|].
    assert (IHc : forall t', S (ty_size t') <= S k -> forall v v', Good n v -> coerce t' v = inl v' -> Good n v').
    { intros t' L. apply coerce_opt_good. intros t'' [->| ->]; apply IH; [|cbn in L]; lia. }
    intros v v' G C. pose proof (gh_compile_value n v G) as Wh.
    destruct t.
    - cbn [coerce_base] in C. destruct (is_unit v); [|destruct v; discriminate].
      assert (v' = UNIT) as -> by (destruct v; congruence). apply good_unit.
    - assert (v' = v) as -> by (cbn [coerce_base] in C; destruct v; congruence). assumption.
    - assert (K : v' = v \/ v' = of_html (compile_value v)).
      { destruct v; cbn [coerce_base] in C; try discriminate C; injection C as <-; auto. }
      destruct K as [-> | ->]; [assumption|now apply good_of_html].
    - assert (K : v' = of_html (if html_is_inline (compile_value v) then in_tag (compile_value v) n_p else compile_value v)).
      { destruct v; cbn [coerce_base] in C; try discriminate C; injection C as <-; reflexivity. }
      subst v'. apply good_of_html. destruct (html_is_inline (compile_value v)); [now apply gh_html_tag|assumption].
    - assert (K : v' = v \/ v' = of_html (compile_value v)).
      { destruct v; cbn [coerce_base] in C; try discriminate C;
          try (destruct (html_is_block (compile_value _)); [discriminate C|]); injection C as <-; auto. }
      destruct K as [-> | ->]; [assumption|now apply good_of_html].
    - destruct v; cbn [coerce_base] in C; try discriminate C; injection C as <-; assumption.
    - destruct v; cbn [coerce_base] in C; try discriminate C; injection C as <-; assumption.
    - destruct v; cbn [coerce_base] in C; try discriminate C; injection C as <-; apply good_str.
    - destruct v; cbn [coerce_base] in C; try discriminate C; injection C as <-; assumption.
    - destruct v; cbn [coerce_base] in C; try discriminate C; injection C as <-; assumption.
    - destruct v; try discriminate C. rewrite coerce_base_dict in C.
      destruct (coerce_all (coerce t) (List.map snd vs)) as [ws|] eqn:E; [|discriminate C]. injection C as <-.
      apply coerce_all_spec in E. apply good_dict in G as [[D F] P].
      assert (L : length (List.map fst vs) = length ws)
        by (rewrite <- (Forall2_len _ _ _ E), !map_length; reflexivity).
      apply good_dict. unfold PlainKeys in *. split; [|unfold nkeys; now rewrite combine_fst]. split; [unfold nkeys; now rewrite combine_fst|]. unfold nvalues. rewrite combine_snd by exact L.
      eapply (Forall2_Forall_r _ (Good n)); [|exact F|exact E]. intros a b Wa Eb. apply (IHc t) in Eb; auto.
    - destruct v; try discriminate C. rewrite coerce_base_list in C.
      destruct (coerce_all (coerce t) vs) as [ws|] eqn:E; [|discriminate C]. injection C as <-.
      apply coerce_all_spec in E. apply good_list in G. apply good_list.
      eapply (Forall2_Forall_r _ (Good n)); [|exact G|exact E]. intros a b Wa Eb. apply (IHc t) in Eb; auto.
    - destruct v; cbn [coerce_base] in C; discriminate C.
  Qed.
  Lemma coerce_good n t v v' : Good n v -> coerce t v = inl v' -> Good n v' /\ HasType t v'.
  Proof.
    intros G C. split; [|eapply coerce_sound; [eapply good_wf; exact G|exact C]].
    revert v v' G C. apply coerce_opt_good. intros t' _. now apply (coerce_good_n n (ty_size t')).
  Qed.

  (** Maps *)
  Lemma map_insert n vs k v : GoodMap n vs -> Good n v -> GoodMap n (ninsert vs k v).
  Proof.
    intros [A B] G. split; [now apply ninsert_nodup|]. rewrite Forall_forall in *. intros x Hx.
    apply in_map_iff in Hx as ([k' x'] & <- & Hx). apply ninsert_in in Hx as [E|Hx]; [now injection E as _ ->|].
    apply B. apply in_map_iff. now exists (k', x').
  Qed.
  Definition GoodNamed (n : nat) (vs : nmap value) : Prop := GoodMap n vs /\ PlainKeys m vs.
  Lemma named_mono n k vs : n <= k -> GoodNamed n vs -> GoodNamed k vs.
  Proof. intros L [A B]. split; [now apply (goodmap_mono n)|exact B]. Qed.
  Lemma named_nil n : GoodNamed n [].
  Proof. split; [apply map_nil|intros _; constructor]. Qed.
  Lemma plain_insert {A} (vs : nmap A) k v : PlainKeys m vs -> (m = Plain -> PlainName k) -> PlainKeys m (ninsert vs k v).
  Proof.
    intros P K E. specialize (P E). rewrite Forall_forall in *. intros x Hx. apply in_map_iff in Hx as ([k' x'] & <- & Hx).
    apply ninsert_in in Hx as [Hx|Hx]; [injection Hx as -> _; now apply K|]. apply P. apply in_map_iff. now exists (k', x').
  Qed.
  Lemma named_insert n vs k v : GoodNamed n vs -> Good n v -> (m = Plain -> PlainName k) -> GoodNamed n (ninsert vs k v).
  Proof. intros [A B] G K. split; [now apply map_insert|now apply plain_insert]. Qed.
  Lemma plain_from {A} (l : list (str * A)) : (m = Plain -> Forall PlainName (List.map fst l)) -> PlainKeys m (nfrom l).
  Proof.
    unfold nfrom. assert (H : forall m0, PlainKeys m m0 -> (m = Plain -> Forall PlainName (List.map fst l)) -> PlainKeys m (fold_left (fun m1 kv => ninsert m1 (fst kv) (snd kv)) l m0)).
    { induction l as [|[k v] l IH]; intros m0 G F; [exact G|]. cbn. apply IH; [|intro E; specialize (F E); now inversion F]. apply plain_insert; [exact G|]. intro E. specialize (F E). now inversion F. }
    apply H. intros _. constructor.
  Qed.
  Lemma map_from n l : Forall (Good n) (List.map snd l) -> GoodMap n (nfrom l).
  Proof.
    unfold nfrom. intro F. assert (H : forall m0, GoodMap n m0 -> GoodMap n (fold_left (fun m1 kv => ninsert m1 (fst kv) (snd kv)) l m0)).
    { induction l as [|[k v] l IH]; intros m0 G; [exact G|]. inversion F as [|? ? F1 F2]; subst. cbn. apply IH; [exact F2|]. now apply map_insert. }
    apply H, map_nil.
  Qed.
End GoodValues.
