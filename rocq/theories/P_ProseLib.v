(** Proofs about prose: the library. *)
From Verif Require Import Base M_Diag M_State M_Native M_Html M_Render M_Eval M_Std M_Lib S_Lib P_Lib S_Prose P_ProseEval.

Lemma compile_str_prose X fuel text ps : x_regex X std_regex <> None -> 40 <= fuel -> Prose text -> Laid text ps ->
  exists tss, Forall2 (Forall2 Written) ps tss /\ compile_str X fuel text = Ret (Document (page tss)).
Proof.
  intros Rx F P L. destruct (std_compiles (no_network X) fuel LWarning None) as (s & C & Fr); [exact Rx|exact F|].
  destruct (compile_prose (no_network X) fuel (lit "<string>") text s ps P L) as (tss & W & H). cbv zeta in H. destruct H as (R & _ & E).
  exists tss. split; [exact W|]. unfold compile_str. cbv zeta. rewrite C, E.
  destruct Fr as (Fs & _). change (st_sink (set_heap (st_heap s ++ [Frame (Some (st_root s)) [] []]) s)) with (st_sink s). rewrite Fs, R. reflexivity.
Qed.
