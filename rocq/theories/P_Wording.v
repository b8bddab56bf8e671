(** Proofs for C64: the wording of the messages. *)
From Verif Require Import Base M_Text M_Types M_Token M_Diag M_Report S_Wording.

Fixpoint pieces (t : list N) (args : list str) : str :=
  match t with
  | [] => []
  | c :: t => if (c =? 37)%N then match args with a :: args => match t with [] => a | _ => a ++ pieces t args end | [] => [] end else c :: pieces t args
  end.
Fixpoint marks (t : list N) : nat := match t with [] => 0 | c :: t => (if (c =? 37)%N then 1 else 0) + marks t end.
Lemma filled_pieces t : forall args, marks t = length args -> Filled t args (pieces t args).
Proof.
  induction t as [|c t IH]; intros args E; cbn [marks pieces] in *; [destruct args; [constructor|discriminate E]|].
  destruct (N.eqb_spec c 37) as [->|N]; [destruct args as [|a args]; [discriminate E|]; injection E as E; specialize (IH _ E); destruct t as [|x t]; [destruct args; [rewrite <- (app_nil_r a) at 2|discriminate E]|]; constructor; exact IH|constructor; [exact N|]; now apply IH].
Qed.
Lemma filled_fun t args s s' : Filled t args s -> Filled t args s' -> s = s'.
Proof.
  intro H. revert s'. induction H; intros s' H'; inversion H'; subst; try contradiction; try reflexivity; f_equal; auto.
Qed.
Lemma called_text k : lit (called k) = kind_text k.
Proof. destruct k as [| | | | | | | | | | | | | | | | | | | | | | | | | | | | | | | | | | | |[] d|]; reflexivity. Qed.
Lemma wording_spec F e : Filled (lit (fst (wording F e))) (snd (wording F e)) (error_text F e).
Proof.
  assert (E : error_text F e = pieces (lit (fst (wording F e))) (snd (wording F e)) /\ marks (lit (fst (wording F e))) = length (snd (wording F e))).
  { destruct e as [[]|[]|[]|[]|[]|[]|]; cbn [wording fst snd]; rewrite ?called_text; split; try reflexivity;
    cbv [error_text module_text name_text runtime_text syntax_text type_text warning_text lit map list_ascii_of_string app pieces]; rewrite <- ?app_assoc, ?app_nil_r; try reflexivity. }
  destruct E as [-> M]. now apply filled_pieces.
Qed.
