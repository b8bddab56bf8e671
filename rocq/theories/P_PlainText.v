(** Proofs for C79. *)
From Verif Require Import Base BaseFacts M_Names M_TagInfo M_Html M_Render S_Html P_Html S_PlainText.

Lemma plain_app es es' t t' : PlainText es t -> PlainText es' t' -> PlainText (es ++ es') (t ++ t').
Proof. induction 1; intro H'; cbn [app]; try (rewrite <- app_assoc); try constructor; auto. Qed.
Lemma break_fun n b b' : BreakAfter n b -> BreakAfter n b' -> b = b'.
Proof.
  intros A B. destruct A as [| |n I N1 N2|n I]; inversion B; subst; try congruence; try reflexivity; exfalso;
    match goal with H : ~ In _ _ |- _ => apply H; clear H; try assumption; apply mem_In; reflexivity end.
Qed.
Lemma plain_fun es t t' : PlainText es t -> PlainText es t' -> t = t'.
Proof.
  intro H. revert t'. induction H as [|c es t H IH|n a es t H IH|n b es t Hb H IH]; intros t' H'; inversion H'; subst; auto.
  - f_equal. auto.
  - f_equal; [|auto]. eapply break_fun; eassumption.
Qed.
Definition break (n : str) : str := if str_eqb n n_p then [10; 10]%N else if str_eqb n n_hr then [10; 8213; 10; 10]%N else if is_block_name n then [10%N] else [].
Lemma break_spec n : BreakAfter n (break n).
Proof.
  unfold break. destruct (str_eqb_spec n n_p) as [->|N1]; [exact ba_paragraph|]. destruct (str_eqb_spec n n_hr) as [->|N2]; [exact ba_rule|].
  unfold is_block_name. destruct (mem n block_names) eqn:E.
  - apply ba_block; try assumption. now apply mem_In.
  - apply ba_inline. intro H. apply mem_In in H. unfold block_elements in H. unfold block_names in E. congruence.
Qed.
Lemma render_plain h : PlainText (events h) (render false h).
Proof.
  induction h as [|n a c IH|l IH|s| |] using html_ind'; cbn [events render negb].
  - constructor.
  - cbn [app]. constructor. apply plain_app; [exact IH|]. fold (break n). rewrite <- (app_nil_r (break n)). constructor; [apply break_spec|constructor].
  - induction IH as [|x l Hx _ IHl]; [constructor|]. cbn [flat_map]. now apply plain_app.
  - induction s as [|c s IHs]; cbn [List.map]; now constructor.
  - repeat constructor.
  - repeat constructor.
Qed.
