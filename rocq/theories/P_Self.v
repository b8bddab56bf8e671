(** Proofs about markup: simple pages are written as they are rendered (C68). *)
From Verif Require Import Base BaseFacts S_Front S_Prose S_Markup S_Self P_Markup9.

Lemma letter_escaped c : Letter c -> escaped_char c = [c] /\ quoted_char c = [c].
Proof.
  intro L. unfold Letter in L. assert (E : escaped_char c = [c]).
  { unfold escaped_char. destruct (N.eqb_spec c 60); [lia|]. destruct (N.eqb_spec c 62); [lia|]. destruct (N.eqb_spec c 38); [lia|]. reflexivity. }
  split; [exact E|]. unfold quoted_char. destruct (N.eqb_spec c 34); [lia|]. destruct (N.eqb_spec c 39); [lia|]. exact E.
Qed.
Lemma simple_escaped c : Simple c -> escaped_char c = [c] /\ quoted_char c = [c].
Proof. intros [L | ->]; [now apply letter_escaped|split; reflexivity]. Qed.
Lemma letter_not c : Letter c -> c <> 92%N /\ c <> 32%N /\ c <> 60%N. Proof. unfold Letter. lia. Qed.
Lemma letters_one c : Letter c -> Letters [c]. Proof. intro L. split; [discriminate|]. constructor; [exact L|constructor]. Qed.
Lemma spelled_head c e : Spelled c e -> exists r, e = 92%N :: r. Proof. intros []; eexists; reflexivity. Qed.
Lemma element_head p e : Element p e -> exists r, e = 60%N :: r. Proof. intros []; eexists; reflexivity. Qed.
Lemma value_letter c v s : Letter c -> Value v s -> Value (c :: v) (c :: s).
Proof.
  intros L V. assert (K : (forall d r, s = d :: r -> ~ Letter d) -> Value (c :: v) (c :: s)).
  { intro N. apply (val_word [c] v s); auto using letters_one. }
  destruct V as [|d e v s Sp V|w v s [W1 W2] N V|v s N V].
  - apply K. discriminate.
  - apply K. destruct (spelled_head _ _ Sp) as [r ->]. intros x y [= <- _] Ld. now apply letter_not in Ld.
  - apply (val_word (c :: w) v s); auto. split; [discriminate|]. now constructor.
  - apply K. intros x y [= <- _] Ld. now apply letter_not in Ld.
Qed.
Lemma value_self v : Forall Simple v -> NoDoubleSpace (List.map Char v) -> Value v v.
Proof.
  induction v as [|c v IH]; intros F D; [constructor|]. inversion F as [|? ? Sc Fv]; subst.
  assert (V : Value v v). { apply IH; auto. intros a b E. apply (D (Char c :: a) b). cbn [List.map app]. now rewrite E. }
  destruct Sc as [L | ->]; [now apply value_letter|]. apply val_space; [|exact V].
  intros c r -> W. inversion Fv as [|? ? [L | ->] _]; subst; [|now apply (D [] (List.map Char r))].
  unfold Letter, WhiteChar in *. cbn in W. lia.
Qed.
Lemma quoted_self v : Forall Simple v -> List.concat (List.map quoted_char v) = v.
Proof. induction 1 as [|c v S _ IH]; [reflexivity|]. cbn [List.map List.concat]. rewrite IH. now rewrite (proj2 (simple_escaped _ S)). Qed.
Lemma name_self n : ~ In 95%N n -> List.map (fun c => if (c =? 95)%N then 45%N else c) n = n.
Proof.
  induction n as [|c n IH]; intro H; [reflexivity|]. cbn [List.map]. rewrite IH by (intro I; apply H; now right).
  destruct (N.eqb_spec c 95) as [E|_]; [|reflexivity]. exfalso. apply H. now left.
Qed.
Lemma attributes_self l : FineAttributes l -> Forall SimpleAttribute l -> Attributes l (List.concat (List.map attribute l)).
Proof.
  intros [l' D F] S. clear l. induction l' as [|[n v] l IH]; [constructor|]. cbn in D. inversion D; inversion F; inversion S as [|? ? (N & Sv & Dv) Sl]; subst.
  cbn [List.map List.concat]. unfold attribute at 1. cbn [fst snd] in *. rewrite name_self, quoted_self by assumption. rewrite <- !app_assoc. apply att_more; auto using value_self.
Qed.
Lemma run_letter c ps s : Letter c -> Run ps s -> Run (Char c :: ps) (c :: s).
Proof.
  intros L V. assert (K : (forall d r, s = d :: r -> ~ Letter d) -> Run (Char c :: ps) (c :: s)).
  { intro N. apply (run_word [c] ps s); auto using letters_one. }
  destruct V as [|d e v s Sp V|w v s [W1 W2] N V|v s N V|p e ps s El I V].
  - apply K. discriminate.
  - apply K. destruct (spelled_head _ _ Sp) as [r ->]. intros x y [= <- _] Ld. now apply letter_not in Ld.
  - apply (run_word (c :: w) v s); auto. split; [discriminate|]. now constructor.
  - apply K. intros x y [= <- _] Ld. now apply letter_not in Ld.
  - apply K. destruct (element_head _ _ El) as [r ->]. intros x y [= <- _] Ld. now apply letter_not in Ld.
Qed.
Lemma holds_not_void n c : Holds n c -> mem n void_tags = false.
Proof.
  intros H. assert (I : In n (section_tags ++ flow_tags ++ List.concat (List.map (fun x => List.map lit (fst x)) item_tags))).
  { destruct H as [[H|H] _|ns items I H _]; [now apply in_or_app; left|apply in_or_app; right; now apply in_or_app; left|].
    apply in_or_app; right; apply in_or_app; right. apply in_concat. eexists. split; [|exact H]. apply in_map_iff. now exists (ns, items). }
  clear H. vm_compute in I. repeat (destruct I as [<-|I]; [vm_compute; reflexivity|]). destruct I.
Qed.
Lemma simple_written :
  (forall p, Fine p -> SimplePiece p -> (exists c, p = Char c) \/ Element p (html_of p)) /\
  (forall ps, FineAll ps -> Forall SimplePiece ps ->
    (Forall Inline ps -> NoDoubleSpace ps -> Run ps (List.concat (List.map html_of ps))) /\ ((forall c, ~ In (Char c) ps) -> Elements ps (List.concat (List.map html_of ps)))).
Proof.
  apply fine_both.
  - eauto.
  - intros n attrs V A Sp. inversion Sp; subst. right. cbn [html_of List.map List.concat app].
    assert (M : mem n void_tags = true) by (apply mem_In; exact V). rewrite M. cbn [app]. rewrite app_nil_r. apply el_void; auto using attributes_self.
  - intros n attrs c L I A _ R F W Sp. inversion Sp; subst. right. cbn [html_of].
    assert (M : mem n void_tags = false) by (destruct (mem n void_tags) eqn:M; [apply mem_In in M; exfalso; now apply (proj1 (proj2 I))|reflexivity]). rewrite M.
    apply el_inline; auto using attributes_self. now apply R.
  - intros n attrs c L H A _ R Sp. inversion Sp; subst. right. cbn [html_of]. rewrite (holds_not_void _ _ H).
    apply el_holds; auto using attributes_self. apply R; [assumption|].
    intros d I. destruct H as [T F|ns items _ _ F]; rewrite Forall_forall in F; specialize (F _ I); [inversion F|]. destruct F as (? & ? & ? & [=] & _).
  - intros _. split; [constructor|]. intros _. apply els_end, blank_nil.
  - intros p ps _ Hp _ R Sp. inversion Sp as [|? ? Sp1 Sp2]; subst. specialize (Hp Sp1). destruct (R Sp2) as [R1 E]. cbn [List.map List.concat]. split.
    + intros F D. inversion F as [|? ? Ip F']; subst. assert (D' : NoDoubleSpace ps) by (intros a b ->; now apply (D (p :: a) b)). specialize (R1 F' D'). destruct Hp as [[c ->] | El].
      * inversion Sp1 as [? Sc|]; subst. cbn [html_of]. rewrite (proj1 (simple_escaped _ Sc)). cbn [app]. destruct Sc as [L | ->]; [now apply run_letter|].
        apply run_space; [|exact R1]. intros d r E' W. destruct ps as [|[d'|n at' ct] ps]; cbn [List.map List.concat html_of] in E'; [discriminate| |injection E' as <- _; cbn in W; intuition discriminate].
        inversion Sp2 as [|? ? S3 _]; subst. inversion S3 as [? Sd|]; subst. rewrite (proj1 (simple_escaped _ Sd)) in E'. injection E' as <- _.
        destruct Sd as [L | ->]; [unfold Letter, WhiteChar in *; cbn in W; lia|now apply (D [] ps)].
      * now apply run_elem.
    + intros N. destruct Hp as [[c ->] | El]; [contradiction (N c); now left|].
      apply (els_more [] p (html_of p) ps); auto using blank_nil. apply E. intros c I. apply (N c). now right.
Qed.
Lemma page_self ps : Forall (fun p => Fine p /\ Block p /\ SimplePiece p) ps -> Page false ps (List.concat (List.map html_of ps)).
Proof.
  induction 1 as [|p ps (F & B & S) _ IH]; [apply page_end, blank_nil|]. cbn [List.map List.concat].
  destruct (proj1 simple_written p F S) as [[c ->] | E]; [inversion B|]. apply (page_block false [] p); auto using blank_nil.
Qed.

(** ** For the example *)
Fixpoint double (space : bool) (c : list piece) : bool :=
  match c with [] => false | Char c :: l => if (c =? 32)%N then space || double true l else double false l | _ :: l => double false l end.
Lemma no_double c : double false c = false -> NoDoubleSpace c.
Proof.
  assert (G : forall a b s, double s (a ++ Char 32%N :: Char 32%N :: b) = true).
  { induction a as [|[x|? ? ?] a IH]; intros b s; cbn [app double]; [destruct s; reflexivity| |apply IH]. destruct (N.eqb x 32); [|apply IH]. rewrite IH. apply orb_true_r. }
  intros H a b ->. rewrite G in H. discriminate.
Qed.
