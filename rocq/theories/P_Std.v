(** The standard library compiles. *)
From Coq Require Import FunctionalExtensionality.
From Verif Require Import Base BaseFacts M_Names M_Html M_Path M_Types M_Diag M_Queue M_Ast M_Parser M_Value M_State M_Native M_Eval M_Std M_Lib S_Lib.

Definition std_ast : list node :=
  Eval vm_compute in match parse (fun _ => []) (fun _ => true) (lit "<stdlib>") std_papyri with Ret (n, _) => n | _ => [] end.
Lemma std_parses decode ok : ok std_regex = true -> parse decode ok (lit "<stdlib>") std_papyri = Ret (std_ast, []).
Proof.
  intro H. replace ok with (fun s => if str_eqb s std_regex then true else ok s).
  - vm_compute. reflexivity.
  - extensionality s. destruct (str_eqb s std_regex) eqn:E; [apply str_eqb_eq in E; now subst|reflexivity].
Qed.
