(** Boolean deciders for the specification predicates of S_Html and S_Sequence, used only to check examples. *)
From Verif Require Import Base BaseFacts M_Text M_Names M_TagInfo M_Html S_Html S_Sequence P_Html P_Sequence.

Definition is_text_b (h : html) : bool := match h with HText _ | HWhitespace | HRawNewline => true | _ => false end.
Definition is_piece_b (h : html) : bool := match h with HEmpty | HSeq _ => false | _ => true end.
Fixpoint no_adj_b (l : list html) : bool :=
  match l with x :: (y :: _) as t => negb (is_text_b x && is_text_b y) && no_adj_b t | _ => true end.
Fixpoint normal_b (h : html) : bool :=
  match h with
  | HText s => negb (str_eqb s []) && negb (str_eqb s [32%N]) && negb (str_eqb s [10%N])
  | HTag _ _ c => normal_b c
  | HSeq l => (2 <=? length l) && forallb is_piece_b l && no_adj_b l && forallb normal_b l
  | _ => true
  end.
Lemma is_text_b_ok : forall h, IsText h <-> is_text_b h = true.
Proof. intros []; cbn; split; try tauto; discriminate. Qed.
Lemma no_adj_ok : forall l, no_adj_b l = true -> NoAdjacentText l.
Proof.
  induction l as [|x [|y l] IH]; intro H; try exact I. cbn [no_adj_b] in H. apply andb_true_iff in H as [H1 H2].
  split; [|auto]. intros [Hx Hy]. apply is_text_b_ok in Hx, Hy. rewrite Hx, Hy in H1. discriminate.
Qed.
Lemma normal_ok : forall h, normal_b h = true -> Normal h.
Proof.
  induction h as [|n a c IH|l IH|s| |] using html_ind'; intro H; cbn [normal_b] in H; try constructor; auto;
    repeat (apply andb_true_iff in H as [H ?]).
  - now apply Nat.leb_le.
  - apply Forall_forall. intros x Hx. rewrite forallb_forall in H2. specialize (H2 x Hx). destruct x; cbn in *; congruence || exact I.
  - now apply no_adj_ok.
  - rewrite forallb_forall in H0. rewrite Forall_forall in *. auto.
  - intros ->. discriminate.
  - intros ->. discriminate.
  - intros ->. discriminate.
Qed.

Definition plain_name_b (n : str) : bool :=
  negb (str_eqb n []) && forallb (fun c => negb (existsb (N.eqb c) [32; 9; 10; 12; 13; 34; 39; 47; 60; 61; 62]%N)) n.
Fixpoint plain_b (h : html) : bool :=
  match h with
  | HTag n a c => plain_name_b n && forallb (fun kv => plain_name_b (fst kv)) a && (negb (mem n void_elements) || html_is_empty c) && plain_b c
  | HSeq l => forallb plain_b l
  | _ => true
  end.
Lemma plain_name_ok : forall n, plain_name_b n = true -> PlainName n.
Proof.
  intros n H. apply andb_true_iff in H as [H1 H2]. split; [intros ->; discriminate|].
  rewrite forallb_forall in H2. apply Forall_forall. intros c Hc Hin.
  specialize (H2 c Hc). apply negb_true_iff in H2. rewrite <- not_true_iff_false in H2. apply H2.
  apply existsb_exists. exists c. split; [exact Hin|apply N.eqb_refl].
Qed.
Lemma plain_ok : forall h, plain_b h = true -> PlainDoc h.
Proof.
  induction h as [|n a c IH|l IH|s| |] using html_ind'; intro H; cbn [plain_b] in H; try constructor.
  - repeat (apply andb_true_iff in H as [H ?]). apply plain_name_ok. unfold plain_name_b. now rewrite H.
  - apply andb_true_iff in H as [H H0]. apply andb_true_iff in H as [H H1]. apply andb_true_iff in H as [H H2].
    apply Forall_forall. intros x Hx. rewrite forallb_forall in H2. auto using plain_name_ok.
  - apply andb_true_iff in H as [H H0]. apply andb_true_iff in H as [H H1]. intro V. apply mem_In in V.
    rewrite V in H1. cbn in H1. now apply is_empty_spec.
  - apply andb_true_iff in H as [H H0]. auto.
  - rewrite forallb_forall in H. rewrite Forall_forall in *. auto.
Qed.

(** Block level, via the model's function, proved equivalent in P_Sequence. *)
Definition homogeneous_b (h : html) : bool := forallb html_is_block (nodes h) || forallb (fun x => negb (html_is_block x)) (nodes h).
Lemma homogeneous_ok : forall h, homogeneous_b h = true -> Homogeneous h.
Proof.
  intros h H. apply orb_true_iff in H as [H|H]; rewrite forallb_forall in H; [left|right]; apply Forall_forall; intros x Hx;
    specialize (H x Hx).
  - now apply block_kind_some.
  - intro B. apply block_kind_some in B. rewrite B in H. discriminate.
Qed.
Definition white_b (c : char) : bool := existsb (N.eqb c) [9; 10; 12; 13; 32]%N.
Lemma white_ok : forall c, white_b c = true <-> White c.
Proof.
  intro c. unfold white_b, White. rewrite existsb_exists. split.
  - intros (x & Hx & E). apply N.eqb_eq in E. now subst.
  - intro H. exists c. split; [exact H|apply N.eqb_refl].
Qed.
Definition notwhite_b (e : event) : bool := match e with EChar c => negb (white_b c) | _ => true end.
Lemma notwhite_ok : forall e, notwhite_b e = true -> NotWhite e.
Proof. intros [c| |] H; [|exact I|exact I]. cbn [notwhite_b] in H. intro W. apply white_ok in W. rewrite W in H. discriminate. Qed.
Definition clean_b (es : list event) : bool :=
  match es with [] => true | e :: _ => notwhite_b e && notwhite_b (List.last es e) end.
Lemma clean_ok : forall es, clean_b es = true -> CleanEdges es.
Proof.
  intros [|e es] H; [now left|]. right. cbn [clean_b] in H. apply andb_true_iff in H as [H1 H2]. split.
  - exists e, es. auto using notwhite_ok.
  - exists (List.last (e :: es) e), (removelast (e :: es)). split; [|now apply notwhite_ok].
    apply app_removelast_last. discriminate.
Qed.
Definition allwhite_b (es : list event) : bool := forallb (fun e => match e with EChar c => white_b c | _ => false end) es.
Lemma allwhite_ok : forall es, allwhite_b es = true -> AllWhite es.
Proof.
  intros es H. unfold allwhite_b in H. rewrite forallb_forall in H.
  apply Forall_forall. intros [c| |] He; specialize (H _ He); try discriminate. exists c. split; [reflexivity|]. now apply white_ok.
Qed.
Fixpoint deepclean_b (h : html) : bool :=
  match h with
  | HTag _ _ c => clean_b (events c) && deepclean_b c
  | HSeq l => forallb deepclean_b l
  | _ => true
  end.
Lemma deepclean_ok : forall h, deepclean_b h = true -> DeepClean h.
Proof.
  induction h as [|n a c IH|l IH|s| |] using html_ind'; intro H; cbn [deepclean_b] in H; try constructor.
  - apply andb_true_iff in H as [H _]. now apply clean_ok.
  - apply andb_true_iff in H as [_ H]. auto.
  - rewrite forallb_forall in H. rewrite Forall_forall in *. auto.
Qed.
