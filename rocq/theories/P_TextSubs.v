(** Proofs about typographic substitution. *)
From Verif Require Import Base BaseFacts M_TextSubs S_TextSubs.

Lemma documented_table p r : In (p, r) text_subs <-> Documented p r.
Proof.
  split.
  - cbn [text_subs In]. intros H.
    repeat (destruct H as [H|H]; [injection H as <- <-;
      first [apply D_em|apply D_en|apply D_both|apply D_left|apply D_right|apply D_ne|apply D_le|apply D_ge|apply D_pm
            |apply D_copy|apply D_nbsp|apply D_minus; lia]|]).
    destruct H.
  - intros H; destruct H as [d Hd| | | | | | | | | | |].
    + assert (E : (d = 48 \/ d = 49 \/ d = 50 \/ d = 51 \/ d = 52 \/ d = 53 \/ d = 54 \/ d = 55 \/ d = 56 \/ d = 57)%N)
        by lia.
      unfold text_subs; cbn [In].
      repeat (destruct E as [E|E]; [subst d; cbv; tauto|]). subst d; cbv; tauto.
    + cbv; tauto. + cbv; tauto. + cbv; tauto. + cbv; tauto. + cbv; tauto. + cbv; tauto.
    + cbv; tauto. + cbv; tauto. + cbv; tauto. + cbv; tauto. + cbv; tauto.
Qed.

Lemma longest_none table s : longest_sub table s = None <-> forall p r, In (p, r) table -> ~ StartsWith p s.
Proof.
  induction table as [|[p r] table IH]; cbn [longest_sub In]; [split; [intros _ ? ? []|reflexivity]|].
  destruct (strip_prefix p s) as [t|] eqn:E.
  - split.
    + destruct (longest_sub table s) as [[p' r']|]; [destruct (length p <? length p')|]; discriminate.
    + intros H. exfalso. apply (H p r); [now left|]. exists t. now apply strip_prefix_spec.
  - rewrite IH. split; intros H.
    + intros p0 r0 [[= <- <-]|I]; [|now apply (H _ _ I)].
      intros [u Eu]. apply strip_prefix_spec in Eu. congruence.
    + intros p0 r0 I. apply (H _ _ (or_intror I)).
Qed.

Lemma longest_some table s p r : longest_sub table s = Some (p, r) ->
  In (p, r) table /\ StartsWith p s /\ forall p' r', In (p', r') table -> StartsWith p' s -> length p' <= length p.
Proof.
  revert p r; induction table as [|[q x] table IH]; intros p r; cbn [longest_sub In]; [discriminate|].
  destruct (strip_prefix q s) as [t|] eqn:E.
  - assert (Q : StartsWith q s) by (exists t; now apply strip_prefix_spec).
    destruct (longest_sub table s) as [[p' r']|] eqn:L.
    + destruct (IH _ _ eq_refl) as (I & S & M).
      destruct (Nat.ltb_spec (length q) (length p')) as [Hl|Hl]; intros [= <- <-].
      * split; [now right|]. split; [exact S|]. intros p0 r0 [[= <- <-]|I0] S0; [lia|now apply (M _ _ I0)].
      * split; [now left|]. split; [exact Q|]. intros p0 r0 [[= <- <-]|I0] S0; [lia|]. specialize (M _ _ I0 S0). lia.
    + intros [= <- <-]. split; [now left|]. split; [exact Q|]. intros p0 r0 [[= <- <-]|I0] S0; [lia|].
      exfalso. now apply (proj1 (longest_none _ _) L _ _ I0).
  - intros H. destruct (IH _ _ H) as (I & S & M). split; [now right|]. split; [exact S|].
    intros p0 r0 [[= <- <-]|I0] [u Eu].
    + apply strip_prefix_spec in Eu. congruence.
    + apply (M _ _ I0). now exists u.
Qed.

Lemma replace_skip table p s : replace_all table (length p) (p ++ s) = replace_all table 0 s.
Proof. induction p as [|c p IH]; [reflexivity|exact IH]. Qed.

Lemma documented_nonempty p r : Documented p r -> p <> [].
Proof. destruct 1; discriminate. Qed.

Lemma substituted_ok s : Substituted s (substitutions s).
Proof.
  unfold substitutions. remember (length s) as n eqn:En. revert s En.
  induction n as [n IH] using lt_wf_ind; intros s En. destruct s as [|c t]; [constructor|].
  cbn [replace_all]. destruct (longest_sub text_subs (c :: t)) as [[p r]|] eqn:L.
  - destruct (longest_some _ _ _ _ L) as (I & [u Eu] & M). apply documented_table in I.
    destruct p as [|c' p]; [now destruct (documented_nonempty _ _ I)|].
    cbn [app] in Eu. injection Eu as -> ->. cbn [length Nat.sub]. rewrite Nat.sub_0_r, replace_skip.
    change (Substituted ((c' :: p) ++ u) (r ++ replace_all text_subs 0 u)). apply Sub_replace; [exact I| |].
    + intros p' r' D S. apply (M p' r'); [now apply documented_table|exact S].
    + apply (IH (length u)); [|reflexivity]. cbn [length] in En. rewrite app_length in En. lia.
  - apply Sub_copy.
    + intros p r D. apply (proj1 (longest_none _ _) L p r). now apply documented_table.
    + apply (IH (length t)); [cbn in En; lia|reflexivity].
Qed.

Lemma app_same_prefix {A} (p p' s s' : list A) : length p = length p' -> p ++ s = p' ++ s' -> p = p' /\ s = s'.
Proof.
  revert p'; induction p as [|x p IH]; intros [|y p'] L E; cbn in *; try discriminate; [auto|].
  injection E as -> E. destruct (IH p' ltac:(lia) E) as [-> ->]. auto.
Qed.
Lemma documented_fun p r r' : Documented p r -> Documented p r' -> r = r'.
Proof. intros H H'. destruct H; inversion H'; subst; try reflexivity; try lia. Qed.

Lemma substituted_fun s o : Substituted s o -> forall o', Substituted s o' -> o = o'.
Proof.
  induction 1 as [|p r rest out D M _ IH|c rest out N _ IH]; intros o' H'.
  - inversion H' as [|p r rest out D M _ E|]; [reflexivity|]. apply app_eq_nil in E.
    now destruct (documented_nonempty _ _ D).
  - inversion H' as [E|p' r' rest' out' D' M' S' E|c rest' out' N' _ E].
    + symmetry in E. apply app_eq_nil in E. now destruct (documented_nonempty _ _ D).
    + assert (L : length p' = length p).
      { apply Nat.le_antisymm; [apply (M _ _ D')|apply (M' _ _ D)].
        - rewrite <- E. now exists rest'.
        - rewrite E. now exists rest. }
      destruct (app_same_prefix _ _ _ _ L E) as [-> ->]. rewrite (documented_fun _ _ _ D D'). f_equal. now apply IH.
    + exfalso. apply (N' _ _ D). rewrite E. now exists rest.
  - inversion H' as [|p' r' rest' out' D' M' S' E|c' rest' out' N' S' E].
    + exfalso. apply (N _ _ D'). exists rest'. now symmetry.
    + f_equal. now apply IH.
Qed.

Lemma substitutions_spec s o : substitutions s = o <-> Substituted s o.
Proof. split; [intros <-; apply substituted_ok|]. intros H. eapply substituted_fun; [apply substituted_ok|exact H]. Qed.

Definition Ascii (s : str) := Forall (fun c => (c < 128)%N) s.
Lemma documented_ascii p r : Documented p r -> Ascii p.
Proof. destruct 1; repeat constructor; lia. Qed.

Lemma out_prefix s o : Substituted s o -> forall q, Ascii q -> StartsWith q o -> StartsWith q s.
Proof.
  induction 1 as [|p r rest out D M _ IH|c rest out N _ IH]; intros q A Sq; [exact Sq| |].
  - destruct q as [|x q]; [now exists (p ++ rest)|]. exfalso. destruct Sq as [u Eu]. inversion A as [|? ? Hx _]; subst.
    destruct D; cbn in Eu; injection Eu as <- _; lia.
  - destruct q as [|x q]; [now exists (c :: rest)|]. destruct Sq as [u Eu]. cbn in Eu. injection Eu as -> Eu.
    destruct (IH q) as [v ->]; [now inversion A|now exists u|]. now exists v.
Qed.

Lemma no_sequence_left s o : Substituted s o -> forall p r, Documented p r -> ~ Contains p o.
Proof.
  induction 1 as [|p r rest out D M S IH|c rest out N S IH]; intros q x Dq (b & a & E).
  - symmetry in E. apply app_eq_nil in E as [_ E]. apply app_eq_nil in E. now destruct (documented_nonempty _ _ Dq).
  - assert (G : forall b, b ++ q ++ a <> out) by (intros b0 E0; apply (IH _ _ Dq); now exists b0, a).
    destruct b as [|y b].
    + destruct D; destruct Dq; cbn in E; injection E as E0 E; try discriminate; lia.
    + destruct D; cbn [app] in E; try (injection E as E0 E; now apply (G b)).
      injection E as E0 E. destruct b as [|z b]; [|cbn [app] in E; injection E as E1 E; now apply (G b)].
      destruct Dq; cbn in E; injection E as E2 E; subst; lia.
  - destruct b as [|y b].
    + apply (N _ _ Dq). apply (out_prefix (c :: rest) (c :: out)); [now constructor|eapply documented_ascii; eassumption|].
      now exists a.
    + cbn [app] in E. injection E as E0 E. apply (IH _ _ Dq). now exists b, a.
Qed.

Lemma unchanged s : (forall p r, Documented p r -> ~ Contains p s) -> substitutions s = s.
Proof.
  intros H. apply substitutions_spec. induction s as [|c s IH]; constructor.
  - intros p r D [u E]. apply (H _ _ D). now exists [], u.
  - apply IH. intros p r D (b & a & E). apply (H _ _ D). exists (c :: b), a. now rewrite E.
Qed.
Lemma substitutions_idem s : substitutions (substitutions s) = substitutions s.
Proof. apply unchanged. intros p r D. eapply no_sequence_left; [apply substituted_ok|exact D]. Qed.
