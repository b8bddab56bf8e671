(** Property C67. *)
From Verif Require Import Base M_Names M_Html M_Types M_Diag M_Ast M_Value M_State M_Native M_Eval S_Example S_Ends P_Mono P_Below P_Ends5 P_Loop.

(** C67. With any limit on the nesting of calls, compiling any text ends, whatever the externals do and in whatever state it starts. *)
Theorem C67_limited : forall X d path text s, exists fuel, compile_limited X d fuel path text s <> NoFuel.
Proof. exact limited_ends. Qed.
Print Assumptions C67_limited.

(** The limit changes nothing else: without it, compiling ends exactly if it ends within some limit, and with the same result. *)
Theorem C67_same : forall X path text s r, r <> NoFuel -> r <> Crash FStdlib ->
  (exists fuel, compile X fuel path text s = r) <-> (exists d fuel, compile_limited X d fuel path text s = r).
Proof.
  intros X path text s r N C. split.
  - intros [n <-]. exists n, n. destruct (unlimited_compile X n path text s) as [H|H]; congruence.
  - intros (d & n & <-). exists n. destruct (below_compile X d n path text s) as [H|[H|H]]; congruence.
Qed.
Print Assumptions C67_same.

(** So a compilation that does not end exceeds every limit on the nesting of calls: nothing else makes it go on for ever. *)
Theorem C67_nesting : forall X path text s, (forall fuel, compile X fuel path text s = NoFuel) ->
  forall d, exists fuel, compile_limited X d fuel path text s = Crash FStdlib.
Proof.
  intros X path text s H d. destruct (limited_ends X d path text s) as [n E]. exists n.
  destruct (below_compile X d n path text s) as [B|[B|B]]; [congruence|exact B|rewrite H in B; congruence].
Qed.
Print Assumptions C67_nesting.

(** Compiling a text ends if evaluating it calls no function. *)
Theorem C67_no_calls : forall X path text s,
  (forall nodes ds, parse_source X path text = Ret (nodes, ds) -> existsb calls_node nodes = false) ->
  exists fuel, compile X fuel path text s <> NoFuel.
Proof. exact no_calls_ends. Qed.
Print Assumptions C67_no_calls.

(** It need not end otherwise: the code has no limit of its own. *)
Theorem C67_endless : exists text, forall X path s fuel, compile X fuel path text s = NoFuel.
Proof. exists ex_loop. intros. apply loop_forever. Qed.
Print Assumptions C67_endless.

(** A text without calls, but with definitions, variables, matching, lists and tags *)
Definition ex_callfree : str := lit "@fn f $x -> @f $x @let(y=[1, 2]) <b a=2>@match $y { [$a, $b] -> <i>$b</i>, _ -> 3 }</b>".
Definition ex_callfree_result := Eval vm_compute in
  (match parse_source ex_X (lit "main.papyri") ex_callfree with Ret (nodes, []) => existsb calls_node nodes | _ => true end,
   match compile ex_X 40 (lit "main.papyri") ex_callfree ex_start with Ok (h, _) t => Some (h, length (sk_v (st_sink t))) | _ => None end).
Example C67_nonvacuous_no_calls : ex_callfree_result =
  (false, Some (HTag (lit "p") [] (HTag (lit "b") [(lit "a", Some (lit "2"))] (HTag (lit "i") [] (HText (lit "2")))), 0)).
Proof. reflexivity. Qed.
(** A text with calls that ends, with two calls at a time and not with one *)
Definition ex_nested : str := lit "@fn g $x -> <i>$x</i> @fn f $x -> @g $x @f 1".
Definition ex_nested_result := Eval vm_compute in
  (match compile ex_X 40 (lit "main.papyri") ex_nested ex_start with Ok (h, _) _ => Some h | _ => None end,
   match compile_limited ex_X 2 40 (lit "main.papyri") ex_nested ex_start with Ok (h, _) _ => Some h | _ => None end,
   match compile_limited ex_X 1 40 (lit "main.papyri") ex_nested ex_start with Crash FStdlib => true | _ => false end).
Example C67_nonvacuous : let h := HTag (lit "p") [] (HTag (lit "i") [] (HText (lit "1"))) in ex_nested_result = (Some h, Some h, true).
Proof. reflexivity. Qed.
