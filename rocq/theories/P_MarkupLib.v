(** Proofs about markup: the library. *)
From Verif Require Import Base M_Names M_TextSubs M_Text S_Grammar M_Parser M_Diag M_State M_Native M_Html M_Render M_Eval M_Std M_Lib S_Lib P_Lib S_Prose S_Markup P_Markup8.

Lemma compile_str_page X text ps : x_regex X std_regex <> None -> (forall l, x_regex X (regex_text regex_escape l) <> None) -> Page false ps text ->
  exists N, forall fuel, N <= fuel -> compile_str X fuel text = Ret (Document (List.concat (List.map html_of ps))).
Proof.
  intros Rs Rx P. destruct (compile_page (no_network X) (lit "<string>") text ps Rx P) as (N & h & R & E). exists (N + 40). intros fuel F.
  destruct (std_compiles (no_network X) fuel LWarning None) as (s & C & Fr); [exact Rs|lia|]. specialize (E fuel s). unfold compile_str. cbv zeta. rewrite C, E by lia.
  destruct Fr as (Fs & _). change (st_sink (set_heap (st_heap s ++ [Frame (Some (st_root s)) [] []]) s)) with (st_sink s). rewrite Fs, R. reflexivity.
Qed.
