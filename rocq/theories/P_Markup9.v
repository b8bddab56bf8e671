(** Proofs about markup: every page can be written. *)
From Verif Require Import Base BaseFacts S_Front S_Prose S_Markup.

Lemma spelled_total c : exists e, Spelled c e.
Proof.
  destruct (N.eq_dec c 10) as [->|N]; [eexists; apply sp_newline|].
  destruct (in_dec N.eq_dec c (lit "xuUnt")) as [I|I]; [|eexists; now apply sp_plain].
  assert (G : forall a b x y, HexDigit a x -> HexDigit b y -> c = ((0 * 16 + x) * 16 + y)%N -> (c < 1114112)%N -> ~ Surrogate c -> exists e, Spelled c e).
  { intros a b x y A B E L S. eexists. apply (sp_code c 120%N 2 [a; b]); auto; [constructor|]. rewrite E. apply (HV_snoc [a]); [|exact B]. apply (HV_snoc []); [constructor|exact A]. }
  cbn in I. destruct I as [<-|[<-|[<-|[<-|[<-|[]]]]]]; [eapply (G 55%N 56%N 7%N 8%N)|eapply (G 55%N 53%N 7%N 5%N)|eapply (G 53%N 53%N 5%N 5%N)|eapply (G 54%N 69%N 6%N 14%N)|eapply (G 55%N 52%N 7%N 4%N)];
    try reflexivity; try (unfold Surrogate; lia).
  all: first [now apply (Hex_num 7%N)|now apply (Hex_num 8%N)|now apply (Hex_num 5%N)|now apply (Hex_num 6%N)|now apply (Hex_num 4%N)|apply (Hex_up 14%N); lia].
Qed.

Lemma value_total v : exists s, Value v s.
Proof. induction v as [|c v [s IH]]; [eexists; constructor|]. destruct (spelled_total c) as [e E]. eexists. now apply (val_char c e v s). Qed.
Lemma attributes_total l : FineAttributes l -> exists a, Attributes l a.
Proof.
  intros [l' D F]. clear l. induction l' as [|[n v] l IH]; [eexists; constructor|]. cbn in D. inversion D; inversion F; subst.
  destruct IH as [a A]; auto. destruct (value_total v) as [s S]. eexists. apply att_more; eassumption.
Qed.
Lemma blank_nil : Blank [].
Proof. constructor. Qed.
Scheme fine_mut := Minimality for Fine Sort Prop with fines_mut := Minimality for FineAll Sort Prop.
Combined Scheme fine_both from fine_mut, fines_mut.
Lemma fine_written :
  (forall p, Fine p -> (exists c, p = Char c) \/ exists e, Element p e) /\
  (forall ps, FineAll ps -> (Forall Inline ps -> exists s, Run ps s) /\ ((forall c, ~ In (Char c) ps) -> exists s, Elements ps s)).
Proof.
  apply fine_both.
  - eauto.
  - intros n attrs V A. right. destruct (attributes_total attrs A) as [a Ha]. eexists. apply el_void; eassumption.
  - intros n attrs c L I A _ [R _] F W. right. destruct (attributes_total attrs A) as [a Ha]. destruct (R F) as [s S]. eexists. eapply el_inline; eassumption.
  - intros n attrs c L H A _ [_ R]. right. destruct (attributes_total attrs A) as [a Ha]. destruct R as [s S].
    { intros d I. destruct H as [T F|ns items _ _ F]; rewrite Forall_forall in F; specialize (F _ I); [inversion F|]. destruct F as (? & ? & ? & [=] & _). }
    eexists. eapply el_holds; eassumption.
  - split; [eexists; constructor|]. intros _. exists []. apply els_end, blank_nil.
  - intros p ps _ Hp _ [R E]. split.
    + intros F. inversion F as [|? ? Ip F']; subst. destruct (R F') as [s S]. destruct Hp as [[c ->] | [e El]].
      * destruct (spelled_total c) as [e Ee]. eexists. now apply (run_char c e ps s).
      * eexists. now apply (run_elem p e ps s).
    + intros N. destruct Hp as [[c ->] | [e El]]; [contradiction (N c); now left|]. destruct E as [s S]; [intros c I; apply (N c); now right|].
      eexists. apply (els_more [] p e ps s); auto using blank_nil.
Qed.
Lemma page_written ps : Forall (fun p => Fine p /\ Block p) ps -> exists text, Page false ps text.
Proof.
  induction 1 as [|p ps [F B] _ [s S]]; [exists []; apply page_end, blank_nil|].
  destruct (proj1 fine_written p F) as [[c ->] | [e E]]; [inversion B|]. eexists. apply (page_block false [] p e ps s); auto using blank_nil.
Qed.

(** ** For the example *)
Ltac lower := eexists; eexists; split; [reflexivity|]; split; [split; vm_compute; discriminate|]; repeat (constructor; [left; split; vm_compute; discriminate|]); constructor.
Ltac not_block := let B := fresh in intros B; inversion B as [? ? ? I|? ? ? I]; subst; vm_compute in I; intuition discriminate.
Ltac inline_tag := split; [vm_compute; intuition discriminate|]; split; [vm_compute; intuition discriminate|];
  let H := fresh in intros ? ? H; cbn in H; repeat (destruct H as [H | H]; [injection H as <- <-; vm_compute; intuition discriminate|]); contradiction.
Ltac letters := split; [discriminate|]; repeat (constructor; [first [left; split; vm_compute; discriminate|right; split; vm_compute; discriminate]|]); constructor.
Ltac no_more := let L := fresh in intros ? ? [= <- _] L; first [destruct L as [L | L]; vm_compute in L; destruct L as [L M]; first [now apply L|now apply M]|vm_compute in L; intuition discriminate].
Lemma c68_ends c : match c with [] => True | p :: _ => ~ WhitePiece p end -> match rev c with [] => True | p :: _ => ~ WhitePiece p end -> NoWhiteEnds c.
Proof.
  intros A B. split; [intros p l ->; exact A|]. intros p l ->. now rewrite rev_app_distr in B.
Qed.
Ltac ends := apply c68_ends; [first [exact Logic.I|intros (? & [=] & W); subst; vm_compute in W; intuition discriminate]|
  first [exact Logic.I|intros (? & [=] & W); subst; vm_compute in W; intuition discriminate]].
