(** Properties C65: prose. *)
From Verif Require Import Base M_Types M_Diag M_State M_Native M_Html M_Render M_Eval M_Std M_Lib.
From Verif Require Import S_TextSubs S_Prose S_Lib S_Example P_Prose P_ProseEval P_ProseUnique P_ProseLib.

(** Every text has exactly one layout, and every word exactly one appearance: so the theorems below say what every prose text
    compiles to. *)
Theorem C65_layout : forall text, exists ps, Laid text ps /\ forall ps', Laid text ps' -> ps' = ps.
Proof. intros text. destruct (laid_total text) as [ps L]. exists ps. split; [exact L|]. intros ps' L'. eapply laid_unique; eassumption. Qed.
Print Assumptions C65_layout.
Theorem C65_word : forall w, exists t, Written w t /\ forall t', Written w t' -> t' = t.
Proof. exact written_unique. Qed.
Print Assumptions C65_word.

(** Whatever was compiled before, compiling prose makes a paragraph of each paragraph, reports nothing and exports nothing; the
    state is as before, but for the frame of the variables of this source, in which there are none. *)
Theorem C65_compile : forall X fuel path text s ps, Prose text -> Laid text ps ->
  exists tss h, Forall2 (Forall2 Written) ps tss /\
    compile X fuel path text s = Ok (h, []) (set_heap (st_heap s ++ [Frame (Some (st_root s)) [] []]) s) /\
    render true h = page tss /\ render false h = bare_page tss.
Proof.
  intros X fuel path text s ps P L. destruct (compile_prose X fuel path text s ps P L) as (tss & W & H). cbv zeta in H.
  destruct H as (R1 & R2 & E). exists tss. eexists. split; [exact W|]. split; [exact E|]. split; [exact R1|exact R2].
Qed.
Print Assumptions C65_compile.

(** The library gives that page. *)
Theorem C65_compile_str : forall X fuel text ps, x_regex X std_regex <> None -> 40 <= fuel -> Prose text -> Laid text ps ->
  exists tss, Forall2 (Forall2 Written) ps tss /\ compile_str X fuel text = Ret (Document (page tss)).
Proof. exact compile_str_prose. Qed.
Print Assumptions C65_compile_str.

(** How a paragraph is filled does not matter. *)
Theorem C65_reflow : forall X fuel text text' ps, x_regex X std_regex <> None -> 40 <= fuel ->
  Prose text -> Prose text' -> Laid text ps -> Laid text' ps -> compile_str X fuel text = compile_str X fuel text'.
Proof.
  intros X fuel text text' ps Rx F P P' L L'.
  destruct (compile_str_prose X fuel text ps Rx F P L) as (tss & W & ->). destruct (compile_str_prose X fuel text' ps Rx F P' L') as (tss' & W' & ->).
  do 3 f_equal. clear - W W'. revert tss' W'. induction W as [|ws ts ps tss W Ws IH]; intros tss' W'; inversion W' as [|? ts' ? tss2 V Vs]; subst; [reflexivity|].
  f_equal; [|now apply IH]. clear - W V. revert ts' V. induction W as [|w t ws ts H Hs IH]; intros ts' V; inversion V as [|? t' ? ts2 H' Hs']; subst; [reflexivity|].
  f_equal; [|now apply IH]. destruct (written_unique w) as (x & _ & U). rewrite (U t H). symmetry. now apply U.
Qed.
Print Assumptions C65_reflow.

(** Words without quotation marks, bars, ellipses and the documented sequences are shown as they are. *)
Theorem C65_verbatim : forall w, (forall c, In c w -> ~ In c (lit "'""|")) -> ~ Contains (lit "...") w ->
  (forall p r, Documented p r -> ~ Contains p w) -> Written w w.
Proof. exact written_same. Qed.
Print Assumptions C65_verbatim.

Definition c65_text : str := lit " ""Well,"" he" ++ [10%N] ++ lit "said -- it's $5... " ++ [10%N; 10%N] ++ lit "a->""b"" R&2 > (c) -3" ++ [10%N].
Definition c65_words : list (list str) :=
  [[lit """Well,"""; lit "he"; lit "said"; lit "--"; lit "it's"; lit "$5..."]; [lit "a->""b"""; lit "R&2"; lit ">"; lit "(c)"; lit "-3"]].
Example C65_nonvacuous : Prose c65_text /\ Laid c65_text c65_words /\
  exists h s, compile ex_X 5 (lit "m") c65_text ex_start = Ok (h, []) s /\
    render true h = lit "<p>" ++ [8220%N] ++ lit "Well," ++ [8221%N] ++ lit " he said " ++ [8211%N] ++ lit " it" ++ [8217%N] ++ lit "s $5" ++
      [8230%N] ++ lit "</p><p>a" ++ [8594; 8221]%N ++ lit "b" ++ [8221%N] ++ lit " R&amp;2 &gt; " ++ [169; 32; 8722]%N ++ lit "3</p>".
Proof.
  split; [apply prose_b_ok; reflexivity|]. split.
  - assert (W : forall w, w <> [] -> forallb (fun c => negb (Base.is_ascii_whitespace c)) w = true -> Word w).
    { intros w N H. split; [exact N|]. apply Forall_forall. intros c I. rewrite forallb_forall in H. apply not_white. now apply negb_true_iff, H. }
    assert (B : forall g, forallb Base.is_ascii_whitespace g = true -> Blank g).
    { intros g H. apply Forall_forall. intros c I. rewrite forallb_forall in H. now apply white_iff, H. }
    apply (laid_some (lit " ") (lit """Well,"" he" ++ [10%N] ++ lit "said -- it's $5... " ++ [10%N; 10%N] ++ lit "a->""b"" R&2 > (c) -3")
      [10%N]); [now apply B| |now apply B].
    apply (pars_more (lit """Well,"" he" ++ [10%N] ++ lit "said -- it's $5...") _ (lit " " ++ [10%N; 10%N]) (lit "a->""b"" R&2 > (c) -3")); [|now apply B| |].
    + apply (words_more (lit """Well,""") (lit " ") _); [now apply W|now apply B|discriminate|cbn; lia|].
      apply (words_more (lit "he") [10%N] _); [now apply W|now apply B|discriminate|cbn; lia|].
      apply (words_more (lit "said") (lit " ") _); [now apply W|now apply B|discriminate|cbn; lia|].
      apply (words_more (lit "--") (lit " ") _); [now apply W|now apply B|discriminate|cbn; lia|].
      apply (words_more (lit "it's") (lit " ") _); [now apply W|now apply B|discriminate|cbn; lia|].
      apply words_one. now apply W.
    + cbn; lia.
    + apply pars_one.
      apply (words_more (lit "a->""b""") (lit " ") _); [now apply W|now apply B|discriminate|cbn; lia|].
      apply (words_more (lit "R&2") (lit " ") _); [now apply W|now apply B|discriminate|cbn; lia|].
      apply (words_more (lit ">") (lit " ") _); [now apply W|now apply B|discriminate|cbn; lia|].
      apply (words_more (lit "(c)") (lit " ") _); [now apply W|now apply B|discriminate|cbn; lia|].
      apply words_one. now apply W.
  - eexists. eexists. split; [vm_compute; reflexivity|vm_compute; reflexivity].
Qed.
