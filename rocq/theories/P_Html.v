(** Proofs for C21-C23. *)
From Verif Require Import Base BaseFacts M_Text M_Names M_TagInfo M_Html M_Render S_Html.

(** ** Induction on documents *)
Section Ind.
  Variable P : html -> Prop.
  Hypothesis He : P HEmpty.
  Hypothesis Ht : forall n a c, P c -> P (HTag n a c).
  Hypothesis Hs : forall l, Forall P l -> P (HSeq l).
  Hypothesis Hx : forall s, P (HText s).
  Hypothesis Hw : P HWhitespace.
  Hypothesis Hn : P HRawNewline.
  Fixpoint html_ind' (h : html) : P h :=
    match h with
    | HEmpty => He
    | HTag n a c => Ht n a c (html_ind' c)
    | HSeq l => Hs l ((fix go l : Forall P l := match l with
                                               | [] => Forall_nil _
                                               | x :: l => Forall_cons _ (html_ind' x) (go l)
                                               end) l)
    | HText s => Hx s
    | HWhitespace => Hw
    | HRawNewline => Hn
    end.
End Ind.

(** ** from_iter *)

Lemma sb_push_seq : forall l b, sb_push (HSeq l) b = fold_left (fun b h => sb_push h b) l b.
Proof. cbn. induction l as [|x l IH]; intro b; cbn; [reflexivity|]. apply IH. Qed.

(** Invariant of the builder: finished children are in normal form, the last one is not text, and pending pieces are text. *)
Definition TextOk (h : html) : Prop := IsText h /\ Normal h.
Definition last_not_text (l : list html) : Prop := forall i x, l = i ++ [x] -> ~ IsText x.
Record sb_ok (b : seq_builder) : Prop := {
  ok_piece : Forall IsPiece (sb_children b);
  ok_norm : Forall Normal (sb_children b);
  ok_adj : NoAdjacentText (sb_children b);
  ok_last : last_not_text (sb_children b);
  ok_text : Forall TextOk (sb_text b)
}.

Lemma NoAdj_snoc : forall l x, NoAdjacentText l -> (last_not_text l \/ ~ IsText x) -> NoAdjacentText (l ++ [x]).
Proof.
  induction l as [|y l IH]; intros x Hl Hx; [exact I|].
  destruct l as [|z l].
  - cbn. split; [|exact I]. intros [H1 H2]. destruct Hx as [Hx|Hx]; [|auto]. apply (Hx [] y eq_refl H1).
  - cbn [app]. destruct Hl as [H1 H2]. cbn [NoAdjacentText]. split; [exact H1|].
    apply IH; [exact H2|]. destruct Hx as [Hx|Hx]; [left|auto].
    intros i w E. apply (Hx (y :: i) w). now rewrite E.
Qed.

Lemma last_snoc_not_text : forall l x, ~ IsText x -> last_not_text (l ++ [x]).
Proof. intros l x H i y E. apply app_inj_tail in E as [_ <-]. exact H. Qed.

Lemma text_node_len : forall h, TextOk h -> text_node_str h <> [].
Proof.
  intros h [H1 H2]. destruct H2; cbn in *; try tauto; try discriminate.
Qed.

Lemma html_text_two : forall s, 2 <= length s -> html_text s = HText s.
Proof. intros [|c [|d s]] H; cbn in *; try lia. reflexivity. Qed.

Lemma Normal_text_two : forall s, 2 <= length s -> Normal (HText s).
Proof. intros s H. constructor; intros ->; cbn in H; lia. Qed.

Lemma flat_len_two : forall x y l, TextOk x -> TextOk y -> 2 <= length (flat_map text_node_str (x :: y :: l)).
Proof.
  intros x y l Hx Hy. cbn. rewrite !app_length.
  pose proof (text_node_len x Hx). pose proof (text_node_len y Hy).
  destruct (text_node_str x), (text_node_str y); cbn; try tauto. lia.
Qed.

Lemma sb_close_cases : forall b, Forall TextOk (sb_text b) ->
  sb_close_text b = b /\ sb_text b = [] \/
  exists x, IsText x /\ Normal x /\ sb_close_text b = {| sb_children := sb_children b ++ [x]; sb_text := [] |}
            /\ text_node_str x = flat_map text_node_str (sb_text b).
Proof.
  intros [ch [|x [|y l]]] H; unfold sb_close_text; cbn [sb_text sb_children] in *.
  - now left.
  - right. exists x. inversion H as [|? ? [H1 H2]]; subst. repeat split; try assumption. cbn. now rewrite app_nil_r.
  - right. inversion H as [|? ? Hx H']; subst. inversion H' as [|? ? Hy ?]; subst.
    pose proof (flat_len_two x y l Hx Hy) as Hl.
    exists (HText (flat_map text_node_str (x :: y :: l))). rewrite (html_text_two _ Hl).
    repeat split; auto using Normal_text_two. 
Qed.

Lemma sb_close_ok : forall b, sb_ok b ->
  Forall IsPiece (sb_children (sb_close_text b)) /\ Forall Normal (sb_children (sb_close_text b))
  /\ NoAdjacentText (sb_children (sb_close_text b)) /\ sb_text (sb_close_text b) = [].
Proof.
  intros b [H1 H2 H3 H4 H5]. destruct (sb_close_cases b H5) as [[E1 E2]|(x & Hx & Hn & E & _)].
  - rewrite E1. auto.
  - rewrite E. cbn [sb_children sb_text]. rewrite !Forall_app. repeat split; auto.
    + constructor; [|constructor]. destruct x; cbn in *; auto.
    + apply NoAdj_snoc; auto.
Qed.

Lemma sb_push_ok : forall h, Normal h -> forall b, sb_ok b -> sb_ok (sb_push h b).
Proof.
  induction h as [|n a c IH|l IH|s| |] using html_ind'; intros Hn b Hb; inversion Hn; subst.
  - exact Hb.
  - destruct (sb_close_ok b Hb) as (H1 & H2 & H3 & H4). cbn [sb_push].
    constructor; cbn [sb_children sb_text].
    + apply Forall_app; split; [exact H1|]. repeat constructor.
    + apply Forall_app; split; [exact H2|]. constructor; [now constructor|constructor].
    + apply NoAdj_snoc; [exact H3|]. right. intros [].
    + apply last_snoc_not_text. intros [].
    + rewrite H4. constructor.
  - rewrite sb_push_seq. assert (Forall Normal l) as Hall by assumption. clear - IH Hall Hb. revert b Hb.
    induction l as [|x l IHl]; intros b Hb; [exact Hb|].
    inversion IH; subst. inversion Hall; subst. cbn [fold_left]. auto.
  - destruct Hb as [H1' H2' H3' H4' H5']. constructor; cbn [sb_push sb_children sb_text]; auto.
    apply Forall_app; split; [exact H5'|]. constructor; [|constructor]. split; [exact I|assumption].
  - destruct Hb as [H1' H2' H3' H4' H5']. constructor; cbn [sb_push sb_children sb_text]; auto.
    apply Forall_app; split; [exact H5'|]. constructor; [|constructor]. split; [exact I|assumption].
  - destruct Hb as [H1' H2' H3' H4' H5']. constructor; cbn [sb_push sb_children sb_text]; auto.
    apply Forall_app; split; [exact H5'|]. constructor; [|constructor]. split; [exact I|assumption].
Qed.

Lemma sb_fold_ok : forall l b, Forall Normal l -> sb_ok b -> sb_ok (fold_left (fun b h => sb_push h b) l b).
Proof.
  induction l as [|x l IH]; intros b Hl Hb; [exact Hb|]. inversion Hl; subst. cbn. auto using sb_push_ok.
Qed.

Lemma sb_new_ok : sb_ok sb_new.
Proof. constructor; cbn; auto. intros i x E. now destruct i. Qed.

Lemma sb_build_normal : forall b, sb_ok b -> Normal (sb_build b).
Proof.
  intros b Hb. destruct (sb_close_ok b Hb) as (H1 & H2 & H3 & H4). unfold sb_build.
  destruct (sb_children (sb_close_text b)) as [|x [|y l]].
  - constructor.
  - now inversion H2.
  - constructor; auto. cbn. lia.
Qed.

Lemma from_iter_normal : forall l, Forall Normal l -> Normal (from_iter l).
Proof. intros l H. apply sb_build_normal, sb_fold_ok; auto using sb_new_ok. Qed.

(** Denotation. This needs no normality: empty text pieces vanish, too. *)
Lemma events_text_node : forall h, IsText h -> events h = List.map EChar (text_node_str h).
Proof. intros [] H; cbn in *; tauto. Qed.

Lemma events_html_text : forall s, events (html_text s) = List.map EChar s.
Proof.
  intros [|c [|d s]]; try reflexivity. cbn.
  destruct (N.eqb_spec c 32) as [->|]; [reflexivity|]. destruct (N.eqb_spec c 10) as [->|]; reflexivity.
Qed.

Lemma events_text_nodes : forall l, Forall IsText l ->
  flat_map events l = List.map EChar (flat_map text_node_str l).
Proof.
  induction l as [|x l IH]; intro H; [reflexivity|]. inversion H; subst. cbn.
  rewrite map_app, IH, events_text_node; auto.
Qed.

Definition sb_events (b : seq_builder) : list event := flat_map events (sb_children b) ++ flat_map events (sb_text b).

Lemma flat_map_snoc : forall {A B} (f : A -> list B) l x, flat_map f (l ++ [x]) = flat_map f l ++ f x.
Proof. intros. rewrite flat_map_app. cbn. now rewrite app_nil_r. Qed.

Lemma sb_close_events : forall b, Forall IsText (sb_text b) ->
  flat_map events (sb_children (sb_close_text b)) = sb_events b /\ sb_text (sb_close_text b) = [].
Proof.
  intros [ch [|x [|y l]]] H; unfold sb_close_text, sb_events; cbn [sb_text sb_children] in *.
  - cbn. now rewrite app_nil_r.
  - rewrite flat_map_snoc. cbn. now rewrite app_nil_r.
  - rewrite flat_map_snoc, events_html_text, <- (events_text_nodes (x :: y :: l)) by assumption. auto.
Qed.

Lemma sb_push_events : forall h b, Forall IsText (sb_text b) ->
  Forall IsText (sb_text (sb_push h b)) /\ sb_events (sb_push h b) = sb_events b ++ events h.
Proof.
  induction h as [|n a c IH|l IH|s| |] using html_ind'; intros b Hb.
  - cbn. rewrite app_nil_r. auto.
  - destruct (sb_close_events b Hb) as [E1 E2]. cbn [sb_push]. unfold sb_events. cbn [sb_children sb_text].
    rewrite E2, flat_map_snoc, E1. split; [constructor|]. cbn. now rewrite app_nil_r.
  - rewrite sb_push_seq. revert b Hb. induction l as [|x l IHl]; intros b Hb.
    + cbn. rewrite app_nil_r. auto.
    + inversion IH; subst. destruct (H1 b Hb) as [H3 H4]. cbn [fold_left].
      destruct (IHl H2 _ H3) as [H5 H6]. split; [exact H5|]. rewrite H6, H4. cbn. now rewrite app_assoc.
  - cbn [sb_push]. unfold sb_events. cbn [sb_children sb_text]. rewrite flat_map_snoc, app_assoc. split; [|reflexivity].
    apply Forall_app; split; [exact Hb|]. repeat constructor.
  - cbn [sb_push]. unfold sb_events. cbn [sb_children sb_text]. rewrite flat_map_snoc, app_assoc. split; [|reflexivity].
    apply Forall_app; split; [exact Hb|]. repeat constructor.
  - cbn [sb_push]. unfold sb_events. cbn [sb_children sb_text]. rewrite flat_map_snoc, app_assoc. split; [|reflexivity].
    apply Forall_app; split; [exact Hb|]. repeat constructor.
Qed.

Lemma sb_text_nodes : forall l b, Forall IsText (sb_text b) ->
  Forall IsText (sb_text (fold_left (fun b h => sb_push h b) l b)).
Proof. induction l as [|x l IH]; intros b H; [exact H|]. cbn. apply IH. now apply sb_push_events. Qed.

Lemma sb_fold_events : forall l b, Forall IsText (sb_text b) ->
  sb_events (fold_left (fun b h => sb_push h b) l b) = sb_events b ++ flat_map events l.
Proof.
  induction l as [|x l IH]; intros b H; [cbn; now rewrite app_nil_r|]. cbn [fold_left].
  destruct (sb_push_events x b H) as [H1 H2]. rewrite IH, H2 by assumption. cbn. now rewrite app_assoc.
Qed.

Lemma sb_build_events : forall b, Forall IsText (sb_text b) -> events (sb_build b) = sb_events b.
Proof.
  intros b H. destruct (sb_close_events b H) as [<- _]. unfold sb_build.
  destruct (sb_children (sb_close_text b)) as [|x [|y l]]; cbn; try reflexivity. now rewrite app_nil_r.
Qed.

Lemma from_iter_events : forall l, events (from_iter l) = flat_map events l.
Proof.
  intro l. unfold from_iter. rewrite sb_build_events by (apply sb_text_nodes; constructor).
  rewrite sb_fold_events by constructor. reflexivity.
Qed.

(** ** Normal documents with the same denotation are equal *)

Fixpoint hsize (h : html) : nat :=
  match h with
  | HTag _ _ c => S (hsize c)
  | HSeq l => S (list_sum (List.map hsize l))
  | _ => 1
  end.

Definition Items (l : list html) : Prop := Forall IsPiece l /\ NoAdjacentText l /\ Forall Normal l.
Lemma Items_nodes : forall h, Normal h -> Items (html_nodes h).
Proof.
  intros h H. destruct H; cbn; repeat split; auto; repeat constructor; auto.
Qed.
Lemma Items_tail : forall x l, Items (x :: l) -> Items l.
Proof.
  intros x l (H1 & H2 & H3). inversion H1; inversion H3; subst. repeat split; auto.
  destruct l; [exact I|]. now destruct H2.
Qed.
Lemma events_nodes : forall h, flat_map events (html_nodes h) = events h.
Proof. intros []; cbn; rewrite ?app_nil_r; reflexivity. Qed.
Lemma nodes_inj : forall h h', Normal h -> Normal h' -> html_nodes h = html_nodes h' -> h = h'.
Proof.
  intros h h' H H' E. destruct H, H'; cbn in E; try discriminate; try (injection E; congruence);
    try congruence; try (subst; cbn in *; lia).
Qed.

Definition Closed (r : list event) : Prop := match r with [] | EClose _ :: _ => True | _ => False end.
Definition NotChar (r : list event) : Prop := match r with EChar _ :: _ => False | _ => True end.

Lemma events_head : forall x r, IsPiece x -> Normal x ->
  (IsText x /\ exists c t, events x ++ r = EChar c :: t) \/
  (exists n a c, x = HTag n a c /\ events x ++ r = EOpen n a :: events c ++ EClose n :: r).
Proof.
  intros x r Hp Hn. destruct Hn; cbn in Hp; try tauto.
  - left. cbn. eauto.
  - left. cbn. eauto.
  - left. split; [exact I|]. destruct s as [|c s]; [congruence|]. cbn. eauto.
  - right. do 3 eexists. split; [reflexivity|]. cbn. now rewrite <- app_assoc.
Qed.

Lemma chars_prefix : forall s s' r r', NotChar r -> NotChar r' ->
  List.map EChar s ++ r = List.map EChar s' ++ r' -> s = s' /\ r = r'.
Proof.
  induction s as [|c s IH]; intros [|c' s'] r r' H H' E; cbn in E.
  - auto.
  - subst r. now destruct H.
  - subst r'. now destruct H'.
  - injection E as -> E. apply IH in E as [-> ->]; auto.
Qed.

Lemma text_node_inj : forall x y, TextOk x -> TextOk y -> text_node_str x = text_node_str y -> x = y.
Proof.
  intros x y [H1 H2] [H3 H4] E. destruct H2, H4; cbn in *; try tauto; subst; try congruence.
Qed.

Lemma NotChar_tail : forall x l r, IsText x -> Items (x :: l) -> Closed r -> NotChar (flat_map events l ++ r).
Proof.
  intros x l r Hx (H1 & H2 & H3) Hr. destruct l as [|y l].
  - cbn. destruct r as [|[] ?]; cbn in *; tauto.
  - cbn [flat_map]. rewrite <- app_assoc. inversion H1 as [|? ? ? H1']; inversion H3 as [|? ? ? H3']; subst.
    inversion H1'; inversion H3'; subst.
    destruct (events_head y (flat_map events l ++ r)) as [[Ht _]|(n & a & c & _ & E)]; auto.
    + destruct H2 as [H2 _]. tauto.
    + rewrite E. exact I.
Qed.

Lemma events_unique_n : forall k l l' r r', list_sum (List.map hsize l) < k ->
  Items l -> Items l' -> Closed r -> Closed r' ->
  flat_map events l ++ r = flat_map events l' ++ r' -> l = l' /\ r = r'.
Proof.
  induction k as [|k IH]; intros l l' r r' Hk Hl Hl' Hr Hr' E; [lia|].
  destruct l as [|x l], l' as [|y l'].
  - cbn in E. auto.
  - destruct Hl' as (H1 & _ & H3). inversion H1; inversion H3; subst. cbn [flat_map] in E. rewrite <- app_assoc in E.
    destruct (events_head y (flat_map events l' ++ r')) as [(_ & c & t & E')|(n & a & c & _ & E')]; auto;
      rewrite E' in E; cbn in E; subst r; destruct Hr.
  - destruct Hl as (H1 & _ & H3). inversion H1; inversion H3; subst. cbn [flat_map] in E. rewrite <- app_assoc in E.
    destruct (events_head x (flat_map events l ++ r)) as [(_ & c & t & E')|(n & a & c & _ & E')]; auto;
      rewrite E' in E; cbn in E; subst r'; destruct Hr'.
  - pose proof (Items_tail _ _ Hl) as Hlt. pose proof (Items_tail _ _ Hl') as Hlt'.
    assert (IsPiece x /\ Normal x) as [Px Nx] by (destruct Hl as (H1 & _ & H3); inversion H1; inversion H3; auto).
    assert (IsPiece y /\ Normal y) as [Py Ny] by (destruct Hl' as (H1 & _ & H3); inversion H1; inversion H3; auto).
    cbn [flat_map] in E. rewrite <- !app_assoc in E. cbn [List.map list_sum fold_right] in Hk.
    change (fold_right Nat.add 0 (List.map hsize l)) with (list_sum (List.map hsize l)) in Hk.
    destruct (events_head x (flat_map events l ++ r) Px Nx) as [(Tx & c1 & t1 & E1)|(n1 & a1 & c1 & -> & E1)];
    destruct (events_head y (flat_map events l' ++ r') Py Ny) as [(Ty & c2 & t2 & E2)|(n2 & a2 & c2 & -> & E2)].
    + rewrite (events_text_node x Tx), (events_text_node y Ty) in E.
      apply chars_prefix in E as [Es Er]; eauto using NotChar_tail.
      apply text_node_inj in Es; [|now split|now split]. subst y.
      apply IH in Er as [-> ->]; auto. assert (1 <= hsize x) by (destruct x; cbn; lia). lia.
    + rewrite E1, E2 in E. discriminate.
    + rewrite E1, E2 in E. discriminate.
    + rewrite E1, E2 in E. injection E as -> -> E.
      inversion Nx; inversion Ny; subst.
      rewrite <- (events_nodes c1), <- (events_nodes c2) in E.
      cbn [hsize] in Hk.
      apply IH in E as [Ec Er]; auto using Items_nodes; try exact I.
      * apply nodes_inj in Ec; auto. subst c2. injection Er as Er.
        apply IH in Er as [-> ->]; auto. lia.
      * destruct c1; cbn [html_nodes] in *; cbn in *; try lia.
Qed.

Lemma events_unique : forall h h', Normal h -> Normal h' -> events h = events h' -> h = h'.
Proof.
  intros h h' H H' E. rewrite <- (events_nodes h), <- (events_nodes h') in E.
  assert (html_nodes h = html_nodes h' /\ @nil event = []) as [En _].
  { eapply (events_unique_n (S (list_sum (List.map hsize (html_nodes h))))); auto using Items_nodes; try exact I.
    now rewrite E. }
  now apply nodes_inj.
Qed.

Lemma from_iter_nodes : forall h, Normal h -> from_iter (html_nodes h) = h.
Proof.
  intros h H. apply events_unique; [|exact H|].
  - apply from_iter_normal. destruct H; cbn; repeat constructor; auto.
  - rewrite from_iter_events. apply events_nodes.
Qed.

(** ** Rendering *)

Lemma render_seq : forall b l, render b (HSeq l) = flat_map (render b) l.
Proof. reflexivity. Qed.

(** What one event contributes to the output. *)
Definition render_event (as_html : bool) (e : event) : str :=
  match e with
  | EChar c => if as_html then encode_char false c else [c]
  | EOpen name attrs => if as_html then lit "<" ++ name ++ flat_map render_attr attrs ++ lit ">" else []
  | EClose name =>
    if negb as_html then
      if str_eqb name n_p then [10%N; 10%N]
      else if str_eqb name n_hr then [10%N; 8213%N; 10%N; 10%N]
      else if is_block_name name then [10%N]
      else []
    else if negb (is_self_closing name) then lit "</" ++ name ++ lit ">"
    else if str_eqb name n_doctype then [10%N]
    else []
  end.

Lemma flat_map_flat_map : forall {A B C} (f : A -> list B) (g : B -> list C) l,
  flat_map g (flat_map f l) = flat_map (fun x => flat_map g (f x)) l.
Proof. induction l as [|x l IH]; cbn; [reflexivity|]. now rewrite flat_map_app, IH. Qed.
Lemma flat_map_map : forall {A B C} (f : A -> B) (g : B -> list C) l, flat_map g (List.map f l) = flat_map (fun x => g (f x)) l.
Proof. induction l as [|x l IH]; cbn; [reflexivity|]. now rewrite IH. Qed.
Lemma flat_map_ext_Forall : forall {A B} (f g : A -> list B) l, Forall (fun x => f x = g x) l -> flat_map f l = flat_map g l.
Proof. induction 1; cbn; congruence. Qed.
Lemma flat_map_single : forall {A} (l : list A), flat_map (fun x => [x]) l = l.
Proof. induction l; cbn; congruence. Qed.

Lemma render_events : forall b h, render b h = flat_map (render_event b) (events h).
Proof.
  intro b. induction h as [|n a c IH|l IH|s| |] using html_ind'.
  - reflexivity.
  - cbn [render events flat_map]. rewrite flat_map_app, <- IH. cbn [flat_map]. rewrite app_nil_r. reflexivity.
  - cbn [render events]. rewrite flat_map_flat_map. now apply flat_map_ext_Forall.
  - cbn [render events]. rewrite flat_map_map. destruct b; cbn [render_event]; [reflexivity|]. now rewrite flat_map_single.
  - destruct b; reflexivity.
  - destruct b; reflexivity.
Qed.

Lemma render_from_iter : forall b l, render b (from_iter l) = flat_map (render b) l.
Proof.
  intros b l. rewrite render_events, from_iter_events, flat_map_flat_map. apply flat_map_ext. intro h.
  symmetry. apply render_events.
Qed.

(** ** Reading back what was rendered *)

Lemma read_chars_app : forall t u s, read_chars s (t ++ u) =
  match read_chars s t with
  | None => None
  | Some (s', e) => match read_chars s' u with None => None | Some (s'', e') => Some (s'', e ++ e') end
  end.
Proof.
  induction t as [|c t IH]; intros u s; cbn [read_chars app].
  - destruct (read_chars s u) as [[]|]; reflexivity.
  - destruct (read_char s c) as [[s1 e1]|]; [|reflexivity]. rewrite IH.
    destruct (read_chars s1 t) as [[s2 e2]|]; [|reflexivity].
    destruct (read_chars s2 u) as [[s3 e3]|]; [|reflexivity]. now rewrite app_assoc.
Qed.

Lemma read_chars_step : forall s t u s' e, read_chars s t = Some (s', e) ->
  read_chars s (t ++ u) = match read_chars s' u with None => None | Some (s'', e') => Some (s'', e ++ e') end.
Proof. intros s t u s' e H. now rewrite read_chars_app, H. Qed.

Definition between (s : rstate) : Prop := s = RData \/ s = RAfterDecl.

Lemma plain_char : forall c, ~ In c [32; 9; 10; 12; 13; 34; 39; 47; 60; 61; 62]%N ->
  (c =? 32)%N = false /\ (c =? 62)%N = false /\ (c =? 47)%N = false /\ (c =? 61)%N = false /\ (c =? 10)%N = false.
Proof. intros c H. cbn [In] in H. repeat split; apply N.eqb_neq; intros ->; tauto. Qed.

Lemma shown_plain : forall k, PlainName k -> PlainName (shown k).
Proof.
  intros k [H1 H2]. split.
  - destruct k; [congruence|discriminate].
  - unfold shown. rewrite Forall_map. eapply Forall_impl; [|exact H2]. intros c Hc. cbn beta.
    destruct (N.eqb_spec c 95); [|exact Hc]. cbn [In]. intuition discriminate.
Qed.

(** One text character. *)
Lemma read_text_char : forall c s, between s -> (s = RAfterDecl -> c <> 10%N) ->
  read_chars s (encode_char false c) = Some (RData, [EChar c]).
Proof.
  intros c s Hs Hd. unfold encode_char. cbn [andb].
  destruct (N.eqb_spec c 60) as [->|H60]; [destruct Hs as [->| ->]; reflexivity|].
  destruct (N.eqb_spec c 62) as [->|H62]; [destruct Hs as [->| ->]; reflexivity|].
  destruct (N.eqb_spec c 38) as [->|H38]; [destruct Hs as [->| ->]; reflexivity|].
  apply N.eqb_neq in H60, H38.
  destruct Hs as [->| ->]; cbn; unfold in_data; rewrite ?H60, ?H38; [reflexivity|].
  rewrite (proj2 (N.eqb_neq c 10)) by auto. reflexivity.
Qed.

Lemma read_tag_name : forall t n u, Forall (fun c => ~ In c [32; 9; 10; 12; 13; 34; 39; 47; 60; 61; 62]%N) t ->
  read_chars (RTagName n) (t ++ u) = read_chars (RTagName (n ++ t)) u.
Proof.
  induction t as [|c t IH]; intros n u H; [now rewrite app_nil_r|]. inversion H as [|? ? Hc Ht]; subst.
  destruct (plain_char c Hc) as (E1 & E2 & _). cbn [app read_chars read_char]. rewrite E1, E2, IH by assumption.
  rewrite <- app_assoc. cbn [app]. now destruct (read_chars _ u) as [[]|].
Qed.
Lemma read_end_name : forall t n u, Forall (fun c => ~ In c [32; 9; 10; 12; 13; 34; 39; 47; 60; 61; 62]%N) t ->
  read_chars (REndName n) (t ++ u) = read_chars (REndName (n ++ t)) u.
Proof.
  induction t as [|c t IH]; intros n u H; [now rewrite app_nil_r|]. inversion H as [|? ? Hc Ht]; subst.
  destruct (plain_char c Hc) as (E1 & E2 & _). cbn [app read_chars read_char]. rewrite E2, IH by assumption.
  rewrite <- app_assoc. cbn [app]. now destruct (read_chars _ u) as [[]|].
Qed.
Lemma read_attr_name : forall t n a k u, Forall (fun c => ~ In c [32; 9; 10; 12; 13; 34; 39; 47; 60; 61; 62]%N) t ->
  read_chars (RAttrName n a k) (t ++ u) = read_chars (RAttrName n a (k ++ t)) u.
Proof.
  induction t as [|c t IH]; intros n a k u H; [now rewrite app_nil_r|]. inversion H as [|? ? Hc Ht]; subst.
  destruct (plain_char c Hc) as (E1 & E2 & E3 & E4 & E5). cbn [app read_chars read_char].
  rewrite E1, E2, E4, IH by assumption.
  rewrite <- app_assoc. cbn [app]. now destruct (read_chars _ u) as [[]|].
Qed.
Lemma read_value : forall v n a k w u,
  read_chars (RVal n a k w) (encode_entities v true ++ u) = read_chars (RVal n a k (w ++ v)) u.
Proof.
  unfold encode_entities. induction v as [|c v IH]; intros n a k w u; [now rewrite app_nil_r|].
  cbn [flat_map]. rewrite <- app_assoc.
  assert (read_chars (RVal n a k w) (encode_char true c) = Some (RVal n a k (w ++ [c]), [])) as E.
  { unfold encode_char. cbn [andb].
    destruct (N.eqb_spec c 60) as [->|H1]; [reflexivity|].
    destruct (N.eqb_spec c 62) as [->|H2]; [reflexivity|].
    destruct (N.eqb_spec c 38) as [->|H3]; [reflexivity|].
    destruct (N.eqb_spec c 34) as [->|H4]; [reflexivity|].
    destruct (N.eqb_spec c 39) as [->|H5]; [reflexivity|].
    apply N.eqb_neq in H3, H4. cbn. now rewrite H4, H3. }
  rewrite (read_chars_step _ _ _ _ _ E), IH, <- app_assoc. cbn [app]. now destruct (read_chars _ u) as [[]|].
Qed.

(** Inside a start tag, where an attribute or [>] may follow. [AttrPos n a st] says the attributes read so far are [a]. *)
Definition finishes (n : str) (a : list (str * option str)) (st : rstate) : Prop :=
  (forall u, read_chars st (32%N :: u) = read_chars (RBeforeAttr n a) u) /\
  read_char st 62%N = opened n a.

Lemma read_cons_id : forall s c s' u, read_char s c = Some (s', []) -> read_chars s (c :: u) = read_chars s' u.
Proof. intros s c s' u H. cbn [read_chars]. rewrite H. now destruct (read_chars s' u) as [[]|]. Qed.

Lemma finishes_name : forall n, finishes n [] (RTagName n).
Proof. intro n. split; [|reflexivity]. intro u. now apply read_cons_id. Qed.
Lemma finishes_after : forall n a, finishes n a (RAfterVal n a).
Proof. intros n a. split; [|reflexivity]. intro u. now apply read_cons_id. Qed.
Lemma finishes_attr : forall n a k, finishes n (a ++ [(k, None)]) (RAttrName n a k).
Proof. intros n a k. split; [|reflexivity]. intro u. now apply read_cons_id. Qed.

Lemma read_attrs : forall l n a st u, Forall (fun kv : str * option str => PlainName (fst kv)) l -> finishes n a st ->
  exists st', finishes n (a ++ List.map (fun kv => (shown (fst kv), snd kv)) l) st' /\
              read_chars st (flat_map render_attr l ++ u) = read_chars st' u.
Proof.
  induction l as [|[k v] l IH]; intros n a st u Hl Hst.
  - exists st. cbn. rewrite app_nil_r. auto.
  - inversion Hl as [|? ? Hk Hl']; subst. cbn [fst] in Hk. apply shown_plain in Hk. destruct Hk as [Hk1 Hk2].
    cbn [flat_map List.map fst snd]. unfold render_attr at 1. cbn [fst snd].
    change (attr_display k) with (shown k). destruct (shown k) as [|c sk] eqn:Ek; [congruence|].
    inversion Hk2 as [|? ? Hc Hsk]; subst. destruct (plain_char c Hc) as (E1 & E2 & E3 & E4 & E5).
    change (lit " ") with [32%N]. cbn [app]. destruct Hst as [Hsp _]. rewrite Hsp.
    rewrite (read_cons_id _ _ (RAttrName n a [c])) by reflexivity. rewrite <- !app_assoc, read_attr_name by assumption.
    cbn [app]. destruct v as [v|].
    + change (lit "=""") with [61%N; 34%N]. change (lit """") with [34%N]. rewrite <- !app_assoc. cbn [app].
      rewrite (read_cons_id _ _ (RBeforeVal n a (c :: sk))) by reflexivity.
      rewrite (read_cons_id _ _ (RVal n a (c :: sk) [])) by reflexivity.
      rewrite read_value. cbn [app].
      rewrite (read_cons_id _ _ (RAfterVal n (a ++ [(c :: sk, Some v)]))) by reflexivity.
      destruct (IH n (a ++ [(c :: sk, Some v)]) (RAfterVal n (a ++ [(c :: sk, Some v)])) u Hl' (finishes_after _ _))
        as (st' & H1 & H2).
      exists st'. rewrite <- app_assoc in H1. auto.
    + cbn [app].
      destruct (IH n (a ++ [(c :: sk, None)]) (RAttrName n a (c :: sk)) u Hl' (finishes_attr _ _ _))
        as (st' & H1 & H2).
      exists st'. rewrite <- app_assoc in H1. auto.
Qed.

Definition shown_attrs (a : list (str * option str)) : list (str * option str) :=
  List.map (fun kv => (shown (fst kv), snd kv)) a.

Lemma read_start_tag : forall n a s, between s -> PlainName n -> Forall (fun kv => PlainName (fst kv)) a ->
  read_chars s (lit "<" ++ n ++ flat_map render_attr a ++ lit ">")
  = Some (if str_eqb n (lit "!DOCTYPE") then RAfterDecl else RData, [EOpen n (shown_attrs a)]).
Proof.
  intros n a s Hs [Hn1 Hn2] Ha. change (lit "<") with [60%N]. cbn [app].
  rewrite (read_cons_id _ _ RTagOpen) by (destruct Hs as [->| ->]; reflexivity).
  destruct n as [|c n]; [congruence|]. inversion Hn2 as [|? ? Hc Hn]; subst.
  destruct (plain_char c Hc) as (E1 & E2 & E3 & _). cbn [app].
  rewrite (read_cons_id _ _ (RTagName [c])) by (cbn; now rewrite E3).
  rewrite read_tag_name by assumption. cbn [app].
  destruct (read_attrs a (c :: n) [] (RTagName (c :: n)) (lit ">") Ha (finishes_name _)) as (st & [_ H1] & ->).
  change (lit ">") with [62%N]. cbn [read_chars]. rewrite H1. reflexivity.
Qed.

Lemma read_end_tag : forall n s, between s -> PlainName n ->
  read_chars s (lit "</" ++ n ++ lit ">") = Some (RData, [EClose n]).
Proof.
  intros n s Hs [Hn1 Hn2]. change (lit "</") with [60%N; 47%N]. cbn [app].
  rewrite (read_cons_id _ _ RTagOpen) by (destruct Hs as [->| ->]; reflexivity).
  rewrite (read_cons_id _ _ (REndName [])) by reflexivity.
  rewrite read_end_name by assumption. reflexivity.
Qed.

(** The reader sees no end tags for void elements and shows attribute names with dashes. *)
Fixpoint seen (h : html) : list event :=
  match h with
  | HEmpty => []
  | HWhitespace => [EChar 32%N]
  | HRawNewline => [EChar 10%N]
  | HText s => List.map EChar s
  | HTag n a c => EOpen n (shown_attrs a) :: seen c ++ (if mem n void_elements then [] else [EClose n])
  | HSeq l => flat_map seen l
  end.

Lemma void_self_closing : forall n, mem n void_elements = is_self_closing n.
Proof. reflexivity. Qed.

Lemma read_text : forall s, read_chars RData (encode_entities s false) = Some (RData, List.map EChar s).
Proof.
  unfold encode_entities. induction s as [|c s IH]; [reflexivity|]. cbn [flat_map List.map].
  rewrite (read_chars_step _ _ _ RData [EChar c]).
  - now rewrite IH.
  - apply read_text_char; [now left|discriminate].
Qed.

Lemma doctype_not_end : forall n, is_self_closing n = false -> str_eqb n (lit "!DOCTYPE") = false.
Proof. intros n H. destruct (str_eqb_spec n (lit "!DOCTYPE")) as [->|]; [discriminate H|reflexivity]. Qed.

Lemma read_render : forall h, PlainDoc h -> read_chars RData (render true h) = Some (RData, seen h).
Proof.
  induction h as [|n a c IH|l IH|s| |] using html_ind'; intro H; inversion H; subst; try reflexivity.
  - cbn [render seen negb]. rewrite <- !app_assoc.
    replace (lit "<" ++ n ++ flat_map render_attr a ++ lit ">" ++ render true c ++
             (if negb (is_self_closing n) then lit "</" ++ n ++ lit ">" else if str_eqb n n_doctype then [10%N] else []))
      with ((lit "<" ++ n ++ flat_map render_attr a ++ lit ">") ++ render true c ++
             (if negb (is_self_closing n) then lit "</" ++ n ++ lit ">" else if str_eqb n n_doctype then [10%N] else []))
      by now rewrite <- !app_assoc.
    rewrite (read_chars_step _ _ _ _ _ (read_start_tag n a RData (or_introl eq_refl) H3 H4)).
    rewrite void_self_closing. destruct (is_self_closing n) eqn:Ev; cbn [negb].
    + assert (c = HEmpty) as -> by (apply H5; unfold Void; apply mem_In; exact Ev). cbn [render app seen].
      change n_doctype with (lit "!DOCTYPE"). destruct (str_eqb n (lit "!DOCTYPE")) eqn:Ed; reflexivity.
    + rewrite (doctype_not_end n Ev).
      rewrite (read_chars_step _ _ _ _ _ (IH H6)).
      rewrite (read_end_tag n RData (or_introl eq_refl) H3). reflexivity.
  - cbn [render seen]. clear H. induction l as [|x l IHl]; [reflexivity|].
    inversion IH as [|? ? Hx Hl]; inversion H1 as [|? ? Px Pl]; subst. cbn [flat_map].
    rewrite (read_chars_step _ _ _ _ _ (Hx Px)), IHl by assumption. reflexivity.
  - apply read_text.
Qed.

Lemma build_seen : forall h, PlainDoc h -> forall r done stack,
  build_tree (seen h ++ r) done stack = build_tree r (rev (doc h) ++ done) stack.
Proof.
  induction h as [|n a c IH|l IH|s| |] using html_ind'; intro H; inversion H; subst; intros r done stack; try reflexivity.
  - cbn [seen doc app build_tree rev]. rewrite <- app_assoc. destruct (mem n void_elements) eqn:Ev.
    + assert (c = HEmpty) as -> by (apply H5; unfold Void; apply mem_In; exact Ev). reflexivity.
    + rewrite (IH H6). cbn [app build_tree]. rewrite str_eqb_refl, app_nil_r, rev_involutive. reflexivity.
  - cbn [seen doc]. clear H. revert done. induction l as [|x l IHl]; intro done; [reflexivity|].
    inversion IH as [|? ? Hx Hl]; inversion H1 as [|? ? Px Pl]; subst. cbn [flat_map].
    rewrite <- app_assoc, (Hx Px), IHl by assumption.
    rewrite rev_app_distr, <- app_assoc. reflexivity.
  - cbn [seen doc]. clear. revert done. induction s as [|c s IH]; intro done; [reflexivity|].
    cbn [List.map app build_tree rev]. rewrite IH, <- app_assoc. reflexivity.
Qed.

Lemma read_html_render : forall h, PlainDoc h -> read_html (render true h) = Some (doc h).
Proof.
  intros h H. unfold read_html. rewrite (read_render h H). rewrite <- (app_nil_r (seen h)), (build_seen h H).
  cbn [build_tree]. now rewrite app_nil_r, rev_involutive.
Qed.

(** Distinct documents have distinct renderings. *)
Section Docs.
  Fixpoint node_events (t : node) : list event :=
    match t with
    | Chr c => [EChar c]
    | Elem n a kids => EOpen n a :: flat_map node_events kids ++ [EClose n]
    end.
End Docs.
Fixpoint shown_events (h : html) : list event :=
  match h with
  | HEmpty => []
  | HWhitespace => [EChar 32%N]
  | HRawNewline => [EChar 10%N]
  | HText s => List.map EChar s
  | HTag n a c => EOpen n (shown_attrs a) :: shown_events c ++ [EClose n]
  | HSeq l => flat_map shown_events l
  end.
Lemma doc_events : forall h, flat_map node_events (doc h) = shown_events h.
Proof.
  induction h as [|n a c IH|l IH|s| |] using html_ind'; try reflexivity.
  - cbn. now rewrite IH, app_nil_r.
  - cbn. rewrite flat_map_flat_map. now apply flat_map_ext_Forall.
  - cbn. rewrite flat_map_map. cbn. induction s; cbn; congruence.
Qed.

Lemma AttrsNoDash_seq : forall l, AttrsNoDash (HSeq l) -> Forall AttrsNoDash l.
Proof. induction l as [|x l IH]; intro H; constructor; [apply H|apply IH, H]. Qed.

Lemma shown_inj : forall k k', NoDash k -> NoDash k' -> shown k = shown k' -> k = k'.
Proof.
  unfold NoDash. induction k as [|c k IH]; intros [|d k'] H H' E; cbn in E; try discriminate; [reflexivity|].
  injection E as E1 E2. cbn [In] in H, H'. rewrite (IH k'); [|tauto|tauto|exact E2].
  f_equal. destruct (N.eqb_spec c 95), (N.eqb_spec d 95); try congruence; subst; tauto.
Qed.
Lemma shown_attrs_inj : forall a a', Forall (fun kv => NoDash (fst kv)) a -> Forall (fun kv => NoDash (fst kv)) a' ->
  shown_attrs a = shown_attrs a' -> a = a'.
Proof.
  induction a as [|[k v] a IH]; intros [|[k' v'] a'] H H' E; cbn in E; try discriminate; [reflexivity|].
  injection E as E1 E2 E3. inversion H; inversion H'; subst. cbn [fst] in *.
  rewrite (IH a'), (shown_inj k k'); auto.
Qed.

Definition unshow_ok (e e' : event) : Prop :=
  match e, e' with
  | EOpen n a, EOpen n' a' => n = n' /\ shown_attrs a = a' /\ Forall (fun kv => NoDash (fst kv)) a
  | _, _ => e = e'
  end.
Lemma shown_events_rel : forall h, AttrsNoDash h -> Forall2 unshow_ok (events h) (shown_events h).
Proof.
  induction h as [|n a c IH|l IH|s| |] using html_ind'; intro H; cbn [events shown_events].
  - constructor.
  - destruct H as [H1 H2]. constructor; [cbn; auto|]. apply Forall2_app; [auto|]. repeat constructor.
  - apply AttrsNoDash_seq in H. induction l as [|x l IHl]; [constructor|]. inversion IH; inversion H; subst.
    cbn [flat_map]. apply Forall2_app; auto.
  - induction s; cbn; constructor; auto. reflexivity.
  - repeat constructor.
  - repeat constructor.
Qed.
Lemma unshow_unique : forall l1 l2 m, Forall2 unshow_ok l1 m -> Forall2 unshow_ok l2 m -> l1 = l2.
Proof.
  induction l1 as [|e1 l1 IH]; intros l2 m H1 H2; inversion H1; subst; inversion H2; subst; [reflexivity|].
  f_equal; [|eauto].
  unfold unshow_ok in *. destruct e1, y, x; try congruence; try tauto.
  destruct H3 as (-> & E1 & F1), H6 as (-> & E2 & F2). f_equal. apply shown_attrs_inj; congruence.
Qed.

Lemma render_injective : forall h h', Normal h -> Normal h' -> PlainDoc h -> PlainDoc h' ->
  AttrsNoDash h -> AttrsNoDash h' -> render true h = render true h' -> h = h'.
Proof.
  intros h h' N1 N2 P1 P2 A1 A2 E. apply events_unique; auto.
  pose proof (read_html_render h P1) as R1. pose proof (read_html_render h' P2) as R2.
  rewrite E, R2 in R1. injection R1 as R1.
  eapply unshow_unique.
  - now apply shown_events_rel.
  - rewrite <- doc_events, <- R1, doc_events. now apply shown_events_rel.
Qed.
