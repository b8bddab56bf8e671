(** Proofs for C24_sorted_exact. *)
From Verif Require Import Base BaseFacts M_Text M_Names M_TagInfo M_Html M_Sequence S_Html S_Sequence S_Inline S_Blocks S_Sorted P_Html P_Sequence P_Inline P_Blocks.

Lemma mem_in n l : mem n l = true <-> In n l.
Proof. unfold mem. rewrite existsb_exists. split; [intros (x & I & E); apply str_eqb_eq in E; now subst|intro I; exists n; split; [exact I|now apply str_eqb_eq]]. Qed.
Lemma among_spec names : forall h, html_is_all names h = true <-> Among names h.
Proof.
  fix IH 1. intro h. destruct h as [|n a c|l|s| |]; cbn [html_is_all].
  - split; [constructor|reflexivity].
  - rewrite mem_in. split; [now constructor|now inversion 1].
  - assert (forallb (html_is_all names) l = true <-> Forall (Among names) l) as ->.
    { induction l as [|x l IHl]; [split; [constructor|reflexivity]|]. cbn [forallb]. rewrite andb_true_iff, (IH x), IHl. split; [intros [A B]; now constructor|]. intro F. inversion F; subst. now split. }
    split; [now constructor|now inversion 1].
  - split; [discriminate|inversion 1].
  - split; [discriminate|inversion 1].
  - split; [discriminate|inversion 1].
Qed.
Lemma push_more : forall f h b r, b_push f h b = Ret r -> b_push (S f) h b = Ret r.
Proof.
  induction f as [|f IH]; intros h b r E; [discriminate|]. destruct b as [p k ch nx]. rewrite b_push_eq in E |- *.
  destruct (html_is_empty h); [exact E|]. destruct (if require_inline k then block_kind h else None); [exact E|]. cbv zeta in *.
  destruct (match k with RequireOneOf names => _ | _ => _ end); [exact E|]. cbv beta in *.
  destruct nx as [c|]; [|destruct (html_is_whitespace h); [exact E|]].
  - destruct (b_push f h c) as [r1| |] eqn:E1; [|discriminate|discriminate]. now rewrite (IH _ _ _ E1).
  - destruct (b_push f h (b_new _ _)) as [r1| |] eqn:E1; [|discriminate|discriminate]. now rewrite (IH _ _ _ E1).
Qed.

(** Wrappers that always can be closed. *)
Definition safe_kinds : list content_kind :=
  List.map content_kind_for (List.map lit ["article"; "a"; "dl"; "hgroup"; "html"; "ul"; "table"; "tbody"; "tr"; "p"; "span"]%string).
Lemma safe_wrap k : In k safe_kinds -> In (content_kind_for (wrap_with k)) safe_kinds.
Proof. unfold safe_kinds. cbn [List.map In]. intro H. repeat (destruct H as [<-|H]; [vm_compute; tauto|]). tauto. Qed.
Lemma safe_not_empty : ~ In RequireEmpty safe_kinds.
Proof. vm_compute. intros H. repeat (destruct H as [H|H]; [discriminate|]). exact H. Qed.
Lemma oneof_safe n names : content_kind_for n = RequireOneOf names -> n <> lit "head" -> In (RequireOneOf names) safe_kinds.
Proof.
  unfold content_kind_for, REQUIRE_P, ALLOW_P. cbv zeta. intros E NH.
  repeat match type of E with (if ?b then _ else _) = _ => destruct b eqn:? end; try discriminate; try (injection E as <-; vm_compute; tauto).
  exfalso. apply NH. match goal with H : mem n (List.map lit ["head"%string]) = true |- _ => apply mem_in in H; destruct H as [<-|[]] end. reflexivity.
Qed.
Fixpoint safeb (b : builder) : Prop :=
  match b with Builder _ k _ nx => In k safe_kinds /\ match nx with None => True | Some c => safeb c end end.
Lemma safe_into : forall b, safeb b -> exists h, b_into_html b = inl h.
Proof.
  apply (builder_ind' (fun b => safeb b -> exists h, b_into_html b = inl h)).
  - intros p k ch [K _]. rewrite into_html_eq. cbv zeta. destruct k, ch; cbv iota; eauto; now apply safe_not_empty in K.
  - intros p k ch c IH [K S]. destruct (IH S) as [h E]. rewrite into_html_eq. cbv zeta. rewrite E. destruct k, ch; cbv iota; eauto; now apply safe_not_empty in K.
Qed.
Lemma safe_close b e b' : safeb b -> b_close_child b = (e, b') -> safeb b' /\ b_kind b' = b_kind b.
Proof.
  destruct b as [p k ch [c|]]; cbn [b_close_child safeb]; intros [K S] E; [|injection E as <- <-; now repeat split].
  destruct (b_into_html c); injection E as <- <-; now repeat split.
Qed.
Lemma safe_push : forall f h b e b', safeb b -> b_push f h b = Ret (e, b') -> safeb b'.
Proof.
  induction f as [|f IH]; intros h b e b' S E; [discriminate|]. destruct b as [p k ch nx]. rewrite b_push_eq in E.
  destruct (html_is_empty h); [injection E as <- <-; exact S|]. destruct (if require_inline k then block_kind h else None); [injection E as <- <-; exact S|]. cbv zeta in E.
  destruct (match k with RequireOneOf names => _ | _ => _ end).
  - destruct (b_close_child (Builder p k ch nx)) as [e1 b1] eqn:C. destruct (safe_close _ _ _ S C) as [S1 _]. destruct e1; [injection E as <- <-; exact S1|].
    destruct b1 as [p1 k1 ch1 nx1]. destruct S1 as [K1 N1]. destruct ch1; [destruct (html_is_whitespace h)|]; injection E as <- <-; now split.
  - cbv beta in E. destruct S as [K N]. destruct nx as [c|].
    + destruct (b_push f h c) as [[e1 c1]| |] eqn:E1; [|discriminate|discriminate]. injection E as <- <-. split; [exact K|]. exact (IH _ _ _ _ N E1).
    + destruct (html_is_whitespace h); [injection E as <- <-; now split|].
      destruct (b_push f h (b_new _ _)) as [[e1 c1]| |] eqn:E1; [|discriminate|discriminate]. injection E as <- <-. split; [exact K|]. refine (IH _ _ _ _ _ E1). split; [now apply safe_wrap|exact I].
Qed.

Lemma b_items_snoc l p : forall b es b1, b_items l b = Ret (es, b1) -> forall e b2, b_push push_fuel p b1 = Ret (e, b2) ->
  b_items (l ++ [Piece p]) b = Ret (es ++ match e with Some e => [e] | None => [] end, b2).
Proof.
  induction l as [|i l IH]; intros b es b1 E e b2 P.
  - injection E as <- <-. cbn [app b_items b_item]. rewrite P. cbn [obind]. now destruct e.
  - cbn [app b_items] in *. destruct (b_item i b) as [[e1 c]| |]; [|discriminate|discriminate]. cbn [obind] in *.
    destruct (b_items l c) as [[es1 c1]| |] eqn:El; [|discriminate|discriminate]. cbn [obind] in E. injection E as <- <-. rewrite (IH _ _ _ El _ _ P). cbn [obind]. now destruct e1.
Qed.
Lemma white_push k p par : html_is_whitespace p = true -> b_push push_fuel p (b_new k par) = Ret (None, b_new k par).
Proof.
  intro W. unfold push_fuel, b_new. rewrite b_push_eq. destruct (html_is_empty p) eqn:E; [reflexivity|].
  assert (B : block_kind p = None) by (destruct p; try reflexivity; discriminate). rewrite B. assert (html_is_block p = false) as HB by (unfold html_is_block; now rewrite B).
  assert ((if require_inline k then @None str else None) = None) as -> by now destruct (require_inline k).
  cbv zeta. destruct k; cbn [b_close_child]; rewrite ?HB, ?W; try reflexivity. assert (html_is_all names p = false) as -> by (destruct p; try reflexivity; discriminate). reflexivity.
Qed.

Section S.
  Variables (names : list str) (parent : option str).
  Let k := RequireOneOf names.
  Let w := wrap_with k.
  Let new := b_new (content_kind_for w) (Some w).
  Hypothesis K : In k safe_kinds.
  Definition nx (run : list html) (c : builder) : option builder := if forallb html_is_whitespace run then None else Some c.
  Definition inside (run : list html) es c : Prop := b_items (List.map Piece run) new = Ret (es, c) /\ safeb c /\ (forallb html_is_whitespace run = true -> es = [] /\ c = new).
  Lemma inside_snoc run es c p e c' : inside run es c -> b_push push_fuel p c = Ret (e, c') -> (forallb html_is_whitespace (run ++ [p]) = true -> e = None /\ c' = new) ->
    inside (run ++ [p]) (es ++ match e with Some e => [e] | None => [] end) c'.
  Proof.
    intros (R & S & W) P F. split; [rewrite map_app; exact (b_items_snoc _ _ _ _ _ R _ _ P)|]. split; [exact (safe_push _ _ _ _ _ S P)|].
    intro A. destruct (F A) as [-> ->]. rewrite forallb_app in A. apply andb_true_iff in A as [A _]. destruct (W A) as [-> _]. now split.
  Qed.
  Lemma wrapped run es c : inside run es c -> exists h, b_into_html c = inl h /\ Wrapped w run es (if html_is_empty h then [] else [HTag w [] h]).
  Proof.
    intros (R & S & _). destruct (safe_into c S) as [h E]. exists h. split; [exact E|]. exists h. unfold compile_items. fold new. rewrite R. cbn [obind]. rewrite E. split; [reflexivity|].
    destruct h; [left; now split|..]; right; (split; [discriminate|reflexivity]).
  Qed.
  Lemma new_into : b_into_html new = inl HEmpty.
  Proof. unfold new, b_new. rewrite into_html_eq. cbv zeta. destruct (content_kind_for w); reflexivity. Qed.
  (** What closing the pending wrapper gives. *)
  Lemma close_nx run es c ch : inside run es c -> exists ps, Wrapped w run es ps /\ Forall (fun x => html_is_whitespace x = false) ps /\
    b_close_child (Builder parent k ch (nx run c)) = (None, Builder parent k (ch ++ ps) None) /\
    b_into_html (Builder parent k ch (nx run c)) = inl (from_iter (pop_white (ch ++ ps))).
  Proof.
    intro H. destruct (wrapped _ _ _ H) as (h & E & Wr). eexists. split; [exact Wr|]. split; [destruct (html_is_empty h); repeat constructor|]. unfold nx. destruct (forallb html_is_whitespace run) eqn:F.
    - destruct H as (_ & _ & A). destruct (A F) as [_ ->]. rewrite new_into in E. injection E as <-. cbn [html_is_empty]. rewrite app_nil_r. split; reflexivity.
    - cbn [b_close_child]. rewrite E. rewrite into_html_eq. cbv zeta. rewrite E. unfold k at 1. change (in_tag h (wrap_with k)) with (HTag w [] h). destruct (html_is_empty h); rewrite ?app_nil_r; split; reflexivity.
  Qed.
  Lemma sorted_run : forall items run es0 c ch es b', inside run es0 c -> b_items items (Builder parent k ch (nx run c)) = Ret (es, b') ->
    exists ps, Arrayed names w run items ps (es0 ++ es) /\ Forall (fun x => html_is_whitespace x = false) ps /\ b_into_html b' = inl (from_iter (pop_white (ch ++ ps))).
  Proof.
    induction items as [|i items IH]; intros run es0 c ch es b' I E.
    - injection E as <- <-. destruct (close_nx _ _ _ ch I) as (ps & Wr & F & _ & R). exists ps. rewrite app_nil_r. repeat split; [now constructor|exact F|exact R].
    - cbn [b_items] in E. assert (I0 : inside [] [] new) by (split; [reflexivity|split; [split; [now apply safe_wrap|exact Logic.I]|now split]]).
      destruct i as [p|]; cbn [b_item] in E.
      + destruct (html_is_empty p) eqn:Ee.
        { destruct p; try discriminate. unfold push_fuel in E. rewrite b_push_eq in E. cbn [html_is_empty obind] in E. destruct (b_items items _) as [[es1 b1]| |] eqn:E1; [|discriminate|discriminate].
          injection E as <- <-. destruct (IH _ _ _ _ _ _ I E1) as (ps & A & F & R). exists ps. repeat split; [now constructor|exact F|exact R]. }
        assert (NE : p <> HEmpty) by (intros ->; discriminate). unfold push_fuel in E. rewrite b_push_eq, Ee in E. change (if require_inline k then block_kind p else None) with (@None str) in E. cbv zeta iota in E.
        change (match k with RequireOneOf names => html_is_all names p | RequireBlock _ | AllowBlock _ => html_is_block p | _ => true end) with (html_is_all names p) in E.
        destruct (html_is_all names p) eqn:Al.
        * destruct (close_nx _ _ _ ch I) as (ps & Wr & F & C & _). rewrite C in E. assert (Wp : html_is_whitespace p = false) by (destruct p; try reflexivity; try discriminate; now elim NE).
          rewrite Wp in E. cbv iota beta in E.
          assert (X : match ch ++ ps with [] => Builder parent k [p] None | _ => Builder parent k ((ch ++ ps) ++ [p]) None end = Builder parent k ((ch ++ ps) ++ [p]) (nx [] new)) by (destruct (ch ++ ps); reflexivity). 
          rewrite X in E.
          cbn [obind] in E. destruct (b_items items _) as [[es1 b1]| |] eqn:E1; [|discriminate|discriminate]. injection E as <- <-.
          destruct (IH _ _ _ _ _ _ I0 E1) as (ps' & A & F' & R). exists (ps ++ p :: ps'). split; [apply Arr_own; [exact NE|now apply among_spec|exact Wr|exact A]|].
          split; [apply Forall_app; split; [exact F|now constructor]|]. rewrite R. now rewrite <- !app_assoc.
        * cbv beta in E. assert (NA : ~ Among names p) by (intro A; apply among_spec in A; congruence). unfold nx in E at 1. destruct (forallb html_is_whitespace run) eqn:Fr.
          -- destruct I as (R & S & W). destruct (W Fr) as [-> ->]. destruct (html_is_whitespace p) eqn:Wp.
             ++ cbn [obind] in E. destruct (b_items items _) as [[es1 b1]| |] eqn:E1; [|discriminate|discriminate]. injection E as <- <-.
                assert (I1 : inside (run ++ [p]) [] new) by (apply (inside_snoc run [] new p None new (conj R (conj S W))); [now apply white_push|now split]).
                assert (nx run new = nx (run ++ [p]) new) as X by (unfold nx; rewrite forallb_app, Fr; cbn [forallb]; now rewrite Wp). rewrite X in E1.
                destruct (IH _ _ _ _ _ _ I1 E1) as (ps & A & F & R'). exists ps. split; [now apply Arr_other|]. now split.
             ++ fold w in E. fold new in E. destruct (b_push 3 p new) as [[e1 c1]| |] eqn:P; [|discriminate|discriminate]. cbn [obind] in E. apply push_more in P.
                assert (I1 : inside (run ++ [p]) ([] ++ match e1 with Some e => [e] | None => [] end) c1).
                { apply (inside_snoc run [] new p e1 c1 (conj R (conj S W)) P). rewrite forallb_app. cbn [forallb]. rewrite Wp, andb_false_r. discriminate. }
                destruct (b_items items _) as [[es1 b1]| |] eqn:E1; [|discriminate|discriminate]. cbn [obind] in E. injection E as <- <-.
                assert (Some c1 = nx (run ++ [p]) c1) as X by (unfold nx; rewrite forallb_app; cbn [forallb]; now rewrite Wp, andb_false_r). rewrite X in E1.
                destruct (IH _ _ _ _ _ _ I1 E1) as (ps & A & F & R'). exists ps. split; [apply Arr_other; [exact NE|exact NA|]; destruct e1; exact A|]. now split.
          -- destruct (b_push 3 p c) as [[e1 c1]| |] eqn:P; [|discriminate|discriminate]. cbn [obind] in E. apply push_more in P.
             assert (I1 : inside (run ++ [p]) (es0 ++ match e1 with Some e => [e] | None => [] end) c1).
             { apply (inside_snoc run es0 c p e1 c1 I P). rewrite forallb_app, Fr. discriminate. }
             destruct (b_items items _) as [[es1 b1]| |] eqn:E1; [|discriminate|discriminate]. cbn [obind] in E. injection E as <- <-.
             assert (Some c1 = nx (run ++ [p]) c1) as X by (unfold nx; rewrite forallb_app, Fr; reflexivity). rewrite X in E1.
             destruct (IH _ _ _ _ _ _ I1 E1) as (ps & A & F & R'). exists ps. split; [apply Arr_other; [exact NE|exact NA|]; rewrite <- app_assoc in A; destruct e1; exact A|]. now split.
      + unfold b_newline in E. cbn [b_kind] in E. unfold k at 1 in E. destruct (close_nx _ _ _ ch I) as (ps & Wr & F & C & _). rewrite C in E. cbn [obind] in E.
        destruct (b_items items _) as [[es1 b1]| |] eqn:E1; [|discriminate|discriminate]. injection E as <- <-. change (@None builder) with (nx [] new) in E1.
        destruct (IH _ _ _ _ _ _ I0 E1) as (ps' & A & F' & R). exists (ps ++ ps'). split; [now apply Arr_break|]. split; [now apply Forall_app|]. rewrite R. now rewrite <- app_assoc.
  Qed.
End S.
Lemma sorted_exact n w names parent items errors h : content_kind_for n = RequireOneOf (w :: names) -> n <> lit "head" ->
  compile_items (content_kind_for n) parent items = Ret (errors, h) -> exists ps, Arrayed (w :: names) w [] items ps errors /\ h = from_iter ps.
Proof.
  intros E NH C. pose proof (oneof_safe _ _ E NH) as K. rewrite E in C. unfold compile_items in C. destruct (b_items items _) as [[es b']| |] eqn:R; [|discriminate|discriminate]. cbn [obind] in C.
  assert (I0 : inside (w :: names) [] [] (b_new (content_kind_for w) (Some w))) by (split; [reflexivity|split; [split; [exact (safe_wrap _ K)|exact Logic.I]|now split]]).
  destruct (sorted_run (w :: names) parent K items [] [] _ [] es b' I0 R) as (ps & A & F & Q). rewrite Q in C. injection C as <- <-. exists ps. split; [exact A|]. cbn [app]. now rewrite pop_white_solid.
Qed.
